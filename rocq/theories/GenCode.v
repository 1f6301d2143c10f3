(** Model of the parser and serializer that rflx/generator/{generator,parser,
    serializer,common}.py generate for a message.

    The generator emits Ada text; the definitions below are what that text computes,
    parameterised by the message: [s] is message.structure, [fields] message.fields,
    [types] the types of the fields and [constants] the values of enumeration
    literals and the sizes of types that conditions may mention.  INITIAL and FINAL
    stand for F_Initial and F_Final.

    Simplifications: expressions are evaluated as written, not after .simplified ()
    (see C06-C10 for the simplifier); conditions over aggregates do not occur
    ([expr] has none); ValidChecksum, which the generator replaces by TRUE
    (common.py:208, generator.py:1180), does not occur; contracts and predicates are
    not executed but given as separate functions; ghost code is left out. *)
From Coq Require Import String List ZArith Bool.
From Verif Require Import Base Expr ExprEval MsgGraph AdaTypes AdaBuffer.
Import ListNotations.
Local Open Scope string_scope.
Local Open Scope list_scope.
Local Open Scope Z_scope.
Local Open Scope res_scope.

(** Length'Last of Natural times 8, rflx_builtin_types.ads:7,17; Bit_Index is
    1 .. Bit_Length'Last, rflx_generic_types.ads:37 *)
Definition Bit_Length_Last : Z := 8 * (2 ^ 31 - 1).
Definition bit_length (z : Z) : res Z :=
  check (0 <=? z) && (z <=? Bit_Length_Last) msg "Bit_Length range"; Ok z.
Definition bit_index (z : Z) : res Z :=
  check (1 <=? z) && (z <=? Bit_Length_Last) msg "Bit_Index range"; Ok z.
(** intermediate results of Bit_Length arithmetic are those of a 64 bit integer *)
Definition in_S64 (z : Z) : bool := (- 2 ^ 63 <=? z) && (z <? 2 ^ 63).

(** the type of a field: a scalar with its size and the generated function Valid
    (generator.py:2900-2912), or a composite *)
Inductive ftype := FScalar (size : Z) (valid : Z -> bool) | FComposite.

(** Cursor_State, generator.py:435-445 *)
Inductive cstate := S_Valid | S_Structural_Valid | S_Invalid | S_Incomplete.

(** Field_Cursor, generator.py:448-536; First, Last and Value = (Fld, Fld_Value)
    exist only for S_Valid and S_Structural_Valid *)
Record cursor := mkCursor {
  c_state : cstate;
  c_pred : field;
  c_first : Z;
  c_last : Z;
  c_fld : field;
  c_value : Z
}.
(** (State => S_Invalid, Predecessor => P) and (State => S_Incomplete, ...) *)
Definition no_cursor (st : cstate) (p : field) : cursor := mkCursor st p 0 0 "" 0.

(** Structural_Valid, Valid and Invalid of a cursor, generator.py:2186-2213 *)
Definition structural_valid (c : cursor) : bool :=
  match c_state c with S_Valid | S_Structural_Valid => true | _ => false end.
Definition valid (c : cursor) : bool :=
  match c_state c with S_Valid => true | _ => false end.
Definition invalid (c : cursor) : bool :=
  match c_state c with S_Invalid | S_Incomplete => true | _ => false end.

(** Context, generator.py:539-618; a null Buffer is [None] *)
Record context := mkContext {
  x_buffer_first : Z;
  x_buffer_last : Z;
  x_first : Z;
  x_last : Z;
  x_message_last : Z;
  x_buffer : option buffer;
  x_cursors : field -> cursor
}.
Definition upd (g : field -> cursor) (f : field) (c : cursor) : field -> cursor :=
  fun f' => if String.eqb f' f then c else g f'.
Definition set_cursor (x : context) (f : field) (c : cursor) : context :=
  mkContext (x_buffer_first x) (x_buffer_last x) (x_first x) (x_last x) (x_message_last x) (x_buffer x)
    (upd (x_cursors x) f c).
Definition set_message_last (x : context) (z : Z) : context :=
  mkContext (x_buffer_first x) (x_buffer_last x) (x_first x) (x_last x) z (x_buffer x) (x_cursors x).
Definition set_buffer (x : context) (b : option buffer) : context :=
  mkContext (x_buffer_first x) (x_buffer_last x) (x_first x) (x_last x) (x_message_last x) b (x_cursors x).

(** ** Evaluation of generated expressions *)

Definition as_bool (v : val) : res bool := match v with VBool b => Ok b | VInt _ => Err "type" end.
Definition as_int (v : val) : res Z := match v with VInt z => Ok z | VBool _ => Err "type" end.

Section Eval.
  (** [inr] is the range of the type of the arithmetic, [look] the meaning of names *)
  Variable inr : Z -> bool.
  Variable look : name -> res val.

  Definition int_res (z : Z) : res val := check inr z msg "overflow"; Ok (VInt z).

  (** "and then", "or else" *)
  Fixpoint stop_at (stop : bool) (l : list (res val)) : res bool :=
    match l with
    | [] => Ok (negb stop)
    | r :: t => let* v := r in let* b := as_bool v in
                if Bool.eqb b stop then Ok stop else stop_at stop t
    end.
  (** "and", "or" *)
  Fixpoint all_bools (l : list (res val)) : res (list bool) :=
    match l with
    | [] => Ok []
    | r :: t => let* v := r in let* b := as_bool v in let* bs := all_bools t in Ok (b :: bs)
    end.
  Fixpoint all_ints (l : list (res val)) : res (list Z) :=
    match l with
    | [] => Ok []
    | r :: t => let* v := r in let* z := as_int v in let* zs := all_ints t in Ok (z :: zs)
    end.

  Definition ass_res (o : assop) (l : list (res val)) : res val :=
    match o with
    | OAnd => let* bs := all_bools l in Ok (VBool (forallb (fun b => b) bs))
    | OOr => let* bs := all_bools l in Ok (VBool (existsb (fun b => b) bs))
    | OAndThen => let* b := stop_at false l in Ok (VBool b)
    | OOrElse => let* b := stop_at true l in Ok (VBool b)
    | OAdd => let* zs := all_ints l in int_res (fold_right Z.add 0 zs)
    | OMul => let* zs := all_ints l in int_res (fold_right Z.mul 1 zs)
    end.
  Definition bin_res (o : binop) (l r : Z) : res val :=
    match o with
    | OSub => int_res (l - r)
    | ODiv => check negb (r =? 0) msg "division by zero"; int_res (Z.quot l r)
    | OPow => check 0 <=? r msg "negative exponent"; int_res (l ^ r)
    | OMod => check negb (r =? 0) msg "division by zero"; int_res (l mod r)
    end.
  Definition rel_res (o : relop) (l r : val) : res val :=
    match l, r with
    | VInt x, VInt y =>
      Ok (VBool match o with
          | OLt => x <? y | OLe => x <=? y | OEq => x =? y
          | OGe => y <=? x | OGt => y <? x | ONe => negb (x =? y)
          end)
    | VBool x, VBool y =>
      match o with
      | OEq => Ok (VBool (Bool.eqb x y))
      | ONe => Ok (VBool (negb (Bool.eqb x y)))
      | _ => Err "type"
      end
    | _, _ => Err "type"
    end.

  (** the Ada expression after common.substitution (common.py:24-121) has replaced
      the names *)
  Fixpoint aeval (e : expr) : res val :=
    match e with
    | ETrue => Ok (VBool true)
    | EFalse => Ok (VBool false)
    | ENum z => Ok (VInt z)
    | EName n neg =>
      let* v := look n in
      if neg then let* z := as_int v in int_res (- z) else Ok v
    | ENot a => let* v := aeval a in let* b := as_bool v in Ok (VBool (negb b))
    | EAss o ts => ass_res o (map aeval ts)
    | EBin o l r => let* a := aeval l in let* b := aeval r in
                    let* x := as_int a in let* y := as_int b in bin_res o x y
    | ERel o l r => let* a := aeval l in let* b := aeval r in rel_res o a b
    end.
End Eval.

(** strict disjunction of generated conditions *)
Fixpoint or_all (l : list (res bool)) : res bool :=
  match l with
  | [] => Ok false
  | r :: t => let* b := r in let* b' := or_all t in Ok (b || b')
  end.
(** if C1 then V1 elsif C2 then V2 ... else D *)
Fixpoint if_elsif {A} (l : list (res bool * res A)) (d : res A) : res A :=
  match l with
  | [] => d
  | (c, v) :: t => let* b := c in if b then v else if_elsif t d
  end.
(** R1 and then R2 and then ... *)
Fixpoint and_then (l : list (res bool)) : res bool :=
  match l with
  | [] => Ok true
  | r :: t => let* b := r in if b then and_then t else Ok false
  end.

Section Message.
  Variable s : list link.
  Variable fields : list field.
  Variable types : field -> ftype.
  Variable constants : name -> option Z.

  Definition composite (f : field) : bool :=
    match types f with FComposite => memf f fields | FScalar _ _ => false end.
  (** message.fields[0] *)
  Definition first_field : field := hd FINAL fields.

  (** common.substitution_facts (common.py:124-209): what the names mean in a context;
      access to First, Last or Value of an invalid cursor fails the discriminant check *)
  Definition look (x : context) (n : name) : res val :=
    match n with
    | NVar id =>
      if memf id fields then
        match types id with
        | FScalar _ _ =>
          let c := x_cursors x id in
          check structural_valid c && String.eqb (c_fld c) id msg "discriminant check"; Ok (VInt (c_value c))
        | FComposite => Err "composite field as value"
        end
      else match constants n with Some z => Ok (VInt z) | None => Err "undefined" end
    | NAttr a id =>
      if memf id fields then
        let c := x_cursors x id in
        check structural_valid c msg "discriminant check";
        match a with
        | AFirst => Ok (VInt (c_first c))
        | ALast => Ok (VInt (c_last c))
        | ASize => Ok (VInt (c_last c - c_first c + 1))
        | ALength => Err "undefined"
        end
      else if String.eqb id "message" then
        match a with
        | AFirst => Ok (VInt (x_first x))
        | ALast => Ok (VInt (x_last x))
        | ASize => Ok (VInt (x_last x - x_first x + 1))
        | ALength => Err "undefined"
        end
      else match constants n with Some z => Ok (VInt z) | None => Err "undefined" end
    end.

  (** a condition, with arithmetic over Types.U64 *)
  Definition cond (lk : name -> res val) (l : link) : res bool :=
    let* v := aeval in_U64 lk (condition l) in as_bool v.
  (** a size, with arithmetic over Types.Bit_Length *)
  Definition int_expr (lk : name -> res val) (e : option expr) : res Z :=
    match e with
    | Some e => let* v := aeval in_S64 lk e in as_int v
    | None => Err "no expression"
    end.

  (** the links from the stored predecessor of a field to the field *)
  Definition links_to (p f : field) : list link :=
    filter (fun l => String.eqb (target l) f) (outgoing s p).

  (** Path_Condition, generator.py:906-958 *)
  Definition path_condition (x : context) (f : field) : res bool :=
    or_all (map (cond (look x)) (links_to (c_pred (x_cursors x f)) f)).

  (** Field_Size, generator.py:962-1035; "others" is Unreachable_Bit_Length, whose
      precondition is False *)
  Definition field_size (x : context) (f : field) : res Z :=
    let p := c_pred (x_cursors x f) in
    if forallb (fun l => String.eqb (target l) FINAL) (outgoing s p) then Ok 0
    else
      match links_to p f, types f with
      | [], _ => Err "unreachable"
      | _, FScalar size _ => bit_length size
      | [l], FComposite => let* z := int_expr (look x) (lsize l) in bit_length z
      | ls, FComposite =>
        let* z := if_elsif (map (fun l => (cond (look x) l, int_expr (look x) (lsize l))) ls)
                           (Err "unreachable") in
        bit_length z
      end.

  (** Field_First, generator.py:1037-1121 *)
  Definition field_first (x : context) (f : field) : res Z :=
    if String.eqb f first_field then bit_index (x_first x)
    else
      let p := c_pred (x_cursors x f) in
      let* z := if_elsif (map (fun l =>
          (if String.eqb p (source l) then cond (look x) l else Ok false,
           match lfirst l with
           | None =>
             let c := x_cursors x p in
             check structural_valid c msg "discriminant check"; Ok (c_last c + 1)
           | Some e => int_expr (look x) (Some e)
           end)) (incoming s f)) (Err "unreachable") in
      bit_index z.

  (** Field_Last, generator.py:1123-1158 *)
  Definition field_last (x : context) (f : field) : res Z :=
    let* a := field_first x f in
    let* z := field_size x f in
    bit_index (a + z - 1).

  (** names in Field_Condition: the field's own value, size and last bit are those
      given or computed, generator.py:1162-1192 *)
  Definition look_val (x : context) (f : field) (v size : Z) (n : name) : res val :=
    match n with
    | NVar id =>
      if String.eqb id f then
        match types f with FScalar _ _ => Ok (VInt v) | FComposite => look x n end
      else look x n
    | NAttr ASize id => if String.eqb id f then Ok (VInt size) else look x n
    | NAttr ALast id => if String.eqb id f then let* z := field_last x f in Ok (VInt z) else look x n
    | _ => look x n
    end.
  (** Field_Condition, generator.py:1160-1227 *)
  Definition field_cond (x : context) (f : field) (v size : Z) : res bool :=
    or_all (map (cond (look_val x f v size)) (outgoing s f)).

  (** Successor, generator.py:1261-1309 *)
  Definition successor (x : context) (f : field) : res field :=
    if_elsif (map (fun l => (cond (look x) l, Ok (target l))) (outgoing s f)) (Ok INITIAL).

  (** Valid_Predecessor, generator.py:1542-1601 *)
  Definition valid_predecessor (x : context) (f : field) : bool :=
    existsb (fun p =>
        (if String.eqb p INITIAL then true
         else if composite p then structural_valid (x_cursors x p) else valid (x_cursors x p))
        && String.eqb (c_pred (x_cursors x f)) p)
      (direct_predecessors s f).

  (** Valid_Next, generator.py:2861-2880 *)
  Definition valid_next (x : context) (f : field) : res bool :=
    if valid_predecessor x f then path_condition x f else Ok false.

  (** Has_Buffer, generator.py:1529-1540 *)
  Definition has_buffer (x : context) : bool := match x_buffer x with Some _ => true | None => false end.

  (** Available_Space, generator.py:1614-1639 *)
  Definition available_space (x : context) (f : field) : res Z :=
    let* a := field_first x f in bit_length (x_last x - a + 1).

  (** Sufficient_Buffer_Length, generator.py:1641-1683 *)
  Definition sufficient_buffer_length (x : context) (f : field) : res bool :=
    let* z := field_size x f in
    let* a := field_first x f in
    let* av := available_space x f in
    Ok (has_buffer x && (0 <=? z) && (a + z <? Bit_Length_Last) && (x_first x <=? a) && (z <=? av)).

  (** ** Context *)

  (** Initialize, generator.py:721-820 *)
  Definition initialize (b : buffer) (first last : Z) : context :=
    mkContext (b_first b) (b_last b) first last first (Some b)
      (upd (fun _ => no_cursor S_Invalid FINAL) first_field (no_cursor S_Invalid INITIAL)).
  (** its precondition, generator.py:735-752 *)
  Definition initialize_pre (b : buffer) (first last : Z) : bool :=
    (0 <? Z.of_nat (List.length (b_data b))) && (b_first b <=? Byte_Index first)
    && (Byte_Index last <=? b_last b) && (first <=? last) && (last <? Bit_Length_Last).

  (** Reset_Dependent_Fields, generator.py:1355-1400 *)
  Definition reset_dependent_fields (x : context) (f : field) : context :=
    let x1 := fold_left (fun y g => set_cursor y g (no_cursor S_Invalid FINAL)) (rev (after f fields)) x in
    set_cursor x1 f (no_cursor S_Invalid (c_pred (x_cursors x1 f))).

  (** ** Parser *)

  (** Get_Field_Value, parser.py:72-165 *)
  Definition get_field_value (x : context) (f : field) : res Z :=
    match types f with
    | FComposite => Ok 0
    | FScalar size _ =>
      let* a := field_first x f in
      let* l := field_last x f in
      match x_buffer x with
      | None => Err "null access"
      | Some b => read_field size b a l
      end
    end.
  (** Valid_Value, generator.py:458-477 *)
  Definition valid_value (f : field) (v : Z) : bool :=
    match types f with FScalar _ vd => vd v | FComposite => true end.

  (** Verify, parser.py:167-365 *)
  Definition verify (x : context) (f : field) : res context :=
    if has_buffer x && invalid (x_cursors x f) && valid_predecessor x f then
      let* pc := path_condition x f in
      if pc then
        let* suff := sufficient_buffer_length x f in
        if suff then
          let* v := get_field_value x f in
          let* z := field_size x f in
          let* fc := field_cond x f v z in
          if valid_value f v && fc then
            let* l := field_last x f in
            let* a := field_first x f in
            let x1 := set_cursor (set_message_last x l) f
                        (mkCursor (if composite f then S_Structural_Valid else S_Valid)
                                  (c_pred (x_cursors x f)) a l f v) in
            let* n := successor x1 f in
            Ok (set_cursor x1 n (no_cursor S_Invalid f))
          else Ok (set_cursor x f (no_cursor S_Invalid FINAL))
        else Ok (set_cursor x f (no_cursor S_Incomplete FINAL))
      else Ok x
    else Ok x.

  (** Verify_Message, parser.py:367-407 *)
  Fixpoint verify_all (x : context) (l : list field) : res context :=
    match l with
    | [] => Ok x
    | f :: t => let* y := verify x f in verify_all y t
    end.
  Definition verify_message (x : context) : res context := verify_all x fields.

  (** Present, Structural_Valid, Valid, Incomplete of a field, parser.py:409-560 *)
  Definition present (x : context) (f : field) : bool :=
    structural_valid (x_cursors x f) && (c_first (x_cursors x f) <? c_last (x_cursors x f) + 1).
  Definition valid_field (x : context) (f : field) : bool :=
    valid (x_cursors x f) && (c_first (x_cursors x f) <? c_last (x_cursors x f) + 1).
  Definition incomplete (x : context) (f : field) : bool :=
    match c_state (x_cursors x f) with S_Incomplete => true | _ => false end.

  (** valid_message_condition, parser.py:758-790; the recursion ends because the graph
      has no cycle *)
  Fixpoint message_cond (n : nat) (structural : bool) (x : context) (f : field) : res bool :=
    match n with
    | O => Err out_of_fuel
    | S k =>
      or_all (map (fun l =>
        if String.eqb (target l) FINAL then cond (look x) l
        else and_then [Ok (if structural && composite (target l) then structural_valid (x_cursors x (target l))
                           else valid_field x (target l));
                       cond (look x) l;
                       message_cond k structural x (target l)]) (outgoing s f))
    end.
  (** Structural_Valid_Message and Valid_Message, parser.py:562-604 *)
  Definition structural_valid_message (n : nat) (x : context) : res bool := message_cond n true x INITIAL.
  Definition valid_message (n : nat) (x : context) : res bool := message_cond n false x INITIAL.
  (** Incomplete_Message, parser.py:606-628 *)
  Definition incomplete_message (x : context) : bool := existsb (incomplete x) fields.

  (** Get_<Field>, parser.py:630-680; To_Actual is the identity on numbers *)
  Definition get_field (x : context) (f : field) : res Z :=
    let c := x_cursors x f in
    check structural_valid c && String.eqb (c_fld c) f msg "discriminant check"; Ok (c_value c).

  (** ** Serializer *)

  (** common.sufficient_space_for_field_condition, common.py:505-509 *)
  Definition sufficient_space (x : context) (f : field) : res bool :=
    let* av := available_space x f in
    let* z := field_size x f in
    Ok (z <=? av).

  (** Set_<Field> of a scalar, serializer.py:228-376: the precondition (Field_Condition
      is called without a size, which defaults to zero, generator.py:1196-1197) *)
  Definition set_scalar_pre (x : context) (f : field) (v : Z) : res bool :=
    and_then [Ok (has_buffer x); valid_next x f; field_cond x f v 0; Ok (valid_value f v); sufficient_space x f].
  (** Set_Field_Value, serializer.py:82-226 *)
  Definition set_field_value (x : context) (f : field) (v : Z) : res (context * Z * Z) :=
    let* a := field_first x f in
    let* l := field_last x f in
    match types f, x_buffer x with
    | FScalar size _, Some b => let* b' := write_field size v b a l in Ok (set_buffer x (Some b'), a, l)
    | FScalar _ _, None => Err "null access"
    | FComposite, _ => Ok (x, a, l)
    end.
  (** the assignments common to all setters, serializer.py:350-371, common.py:512-567 *)
  Definition enter_field (st : cstate) (x : context) (f : field) (a l v : Z) : res context :=
    let x1 := set_message_last x l in
    let x2 := set_cursor x1 f (mkCursor st (c_pred (x_cursors x1 f)) a l f v) in
    let* n := successor x2 f in
    Ok (set_cursor x2 n (no_cursor S_Invalid f)).
  Definition set_scalar (x : context) (f : field) (v : Z) : res context :=
    let* r := set_field_value (reset_dependent_fields x f) f v in
    let '(x1, a, l) := r in
    enter_field S_Valid x1 f a l v.

  (** composite setters, serializer.py:378-800: the common precondition *)
  Definition set_composite_pre (x : context) (f : field) : res bool :=
    and_then [Ok (has_buffer x); valid_next x f;
              (let* z := field_size x f in field_cond x f 0 z);
              sufficient_space x f;
              (let* a := field_first x f in Ok (a mod 8 =? 1));
              (let* z := field_size x f in Ok (z mod 8 =? 0))].
  (** Initialize_<Field> (common.py:512-567; S_Structural_Valid), Set_<Field>_Empty and
      __set_array_field (serializer.py:418-455,862-905; S_Valid) *)
  Definition set_composite (st : cstate) (x : context) (f : field) : res context :=
    let* a := field_first x f in
    let* l := field_last x f in
    enter_field st (reset_dependent_fields x f) f a l 0.
  (** Set_<Field> of an opaque field with the given bytes, serializer.py:545-640: the
      length in the precondition and the assignment of the slice; also what
      Generic_Set_<Field> and Set_<Field> of an array do to the buffer *)
  Definition set_opaque_pre (x : context) (f : field) (value : list Z) : res bool :=
    and_then [set_composite_pre x f;
              (let* a := field_first x f in
               let* l := field_last x f in
               Ok (Z.of_nat (List.length value) =? Byte_Index l - Byte_Index a + 1))].
  Definition set_opaque (st : cstate) (x : context) (f : field) (value : list Z) : res context :=
    let* a := field_first x f in
    let* l := field_last x f in
    let* y := set_composite st x f in
    match x_buffer y with
    | None => Err "null access"
    | Some b =>
      let* _ := slice b (Byte_Index a) (Byte_Index l) in
      check Z.of_nat (List.length value) =? Byte_Index l - Byte_Index a + 1 msg "length check";
      Ok (set_buffer y (Some (put_slice b (Byte_Index a) value)))
    end.

  (** ** The predicate of Context *)

  (** message_structure_invariant, common.py:212-330 *)
  Fixpoint structure_invariant (n : nat) (x : context) (l : link) : res bool :=
    match n with
    | O => Err out_of_fuel
    | S k =>
      if String.eqb (target l) FINAL then Ok true
      else
        let f := target l in
        let c := x_cursors x f in
        let* on := and_then [Ok (structural_valid c); cond (look x) l] in
        if on then
          and_then ([
            (let* z := match types f with
                       | FScalar size _ => Ok size
                       | FComposite => int_expr (look x) (lsize l)
                       end in
             Ok (c_last c - c_first c + 1 =? z));
            Ok (String.eqb (c_pred c) (source l));
            (let* a := if String.eqb (source l) INITIAL then Ok (x_first x)
                       else match lfirst l with
                            | None => let p := x_cursors x (source l) in
                                      check structural_valid p msg "discriminant check"; Ok (c_last p + 1)
                            | Some e => int_expr (look x) (Some e)
                            end in
             Ok (c_first c =? a))]
            ++ map (structure_invariant k x) (outgoing s f))
        else Ok true
    end.

  (** the fields other than the first, common.py:383,429 *)
  Definition later_fields : list field := filter (fun f => negb (memf f (direct_successors s INITIAL))) fields.

  (** context_predicate, common.py:333-480 *)
  Definition valid_context (n : nat) (x : context) : res bool :=
    and_then [
      Ok (match x_buffer x with
          | Some b => (b_first b =? x_buffer_first x) && (b_last b =? x_buffer_last x)
          | None => true
          end);
      (* public_context_predicate, common.py:483-493 *)
      Ok ((x_buffer_first x <=? Byte_Index (x_first x)) && (Byte_Index (x_last x) <=? x_buffer_last x)
          && (x_first x <=? x_last x) && (x_last x <? Bit_Length_Last));
      Ok (x_first x <=? x_message_last x);
      Ok (x_message_last x <=? x_last x);
      Ok (forallb (fun f =>
            let c := x_cursors x f in
            negb (structural_valid c)
            || ((x_first x <=? c_first c) && (c_last c <=? x_message_last x) && (c_first c <=? c_last c + 1)
                && String.eqb (c_fld c) f)) fields);
      (* valid_predecessors_invariant, common.py:334-386 *)
      and_then (map (fun f =>
          if structural_valid (x_cursors x f) then
            or_all (map (fun l =>
              and_then [Ok (if composite (source l) then structural_valid (x_cursors x (source l))
                            else valid (x_cursors x (source l)));
                        Ok (String.eqb (c_pred (x_cursors x f)) (source l));
                        cond (look x) l]) (incoming s f))
          else Ok true) later_fields);
      (* invalid_successors_invariant, common.py:388-431 *)
      Ok (forallb (fun f =>
            negb (forallb (fun p => invalid (x_cursors x p)) (direct_predecessors s f))
            || invalid (x_cursors x f)) later_fields);
      match outgoing s INITIAL with
      | [] => Err "IndexError"
      | l :: _ => structure_invariant n x l
      end].
End Message.
