(** Model of rflx/templates/rflx_scalar_sequence.{ads,adb}.

    A procedure returns [Err] if its precondition, a range check of an Ada type or the
    predicate of the resulting context is violated.  An access value is [option
    buffer]. *)
From Coq Require Import String List ZArith Bool.
From Verif Require Import Base AdaTypes AdaBuffer.
Import ListNotations.
Local Open Scope string_scope.
Local Open Scope list_scope.
Local Open Scope Z_scope.
Local Open Scope res_scope.

(** type Context, ads:147-165 *)
Record context := mkContext {
  buffer_first : Z; buffer_last : Z; first : Z; last : Z;
  sequence_last : Z;
  buf : option buffer;
  state_valid : bool;
  next_element : Z
}.

Section ScalarSequence.
  (** the generic parameters, ads:4-10; the type Element_Base_Type is given by its size,
      the value range is 0 .. 2 ** size - 1 (rflx_generic_types.adb:161-171 demands
      that the type covers its range) *)
  Variable index_last : Z.       (** Types.Index'Last *)
  Variable element : Type.
  Variable size : Z.             (** Element_Base_Type'Size *)
  Variable valid : Z -> bool.
  Variable to_actual : Z -> element.
  Variable to_base : element -> Z.

  (** rflx_generic_types.ads:30-34 *)
  Definition bit_last : Z := 8 * index_last.
  Definition bit_length (v : Z) : res Z := check (0 <=? v) && (v <=? bit_last) msg "Bit_Length range"; Ok v.
  Definition bit_index (v : Z) : res Z := check (1 <=? v) && (v <=? bit_last) msg "Bit_Index range"; Ok v.

  (** Dynamic_Predicate ads:153-165 *)
  Definition context_predicate (c : context) : bool :=
    match buf c with
    | Some b => (b_first b =? buffer_first c) && (b_last b =? buffer_last c)
    | None => true
    end
    && (buffer_first c <=? Byte_Index (first c))
    && (Byte_Index (last c) <=? buffer_last c)
    && (first c mod 8 =? 1)
    && (first c <=? last c)
    && (last c <=? bit_last - 1)
    && (first c - 1 <=? sequence_last c)
    && (sequence_last c <=? last c).
  Definition checked (c : context) : res context := check context_predicate c msg "context predicate"; Ok c.

  (** ads:167-193 *)
  Definition has_buffer (c : context) : bool := match buf c with Some _ => true | None => false end.
  Definition has_element (c : context) : bool := state_valid c && (size <=? last c - sequence_last c).
  Definition valid_element (c : context) : bool := state_valid c && valid (next_element c).
  Definition available_space (c : context) : Z := last c - sequence_last c.

  (** Initialize with bounds, pre ads:51-61, body adb:31-35; the second result is the
      actual parameter Buffer *)
  Definition initialize_bounds (b : option buffer) (bf bl f l : Z) : res (context * option buffer) :=
    match b with
    | None => Err "Initialize precondition"
    | Some b' =>
      check (b_first b' =? bf) && (b_last b' =? bl) && (b_first b' <=? Byte_Index f) && (Byte_Index l <=? b_last b')
            && (f mod 8 =? 1) && (f <=? l) && (l <=? bit_last - 1)
        msg "Initialize precondition";
      let* c := checked (mkContext bf bl f l (f - 1) b true 0) in
      Ok (c, None)
    end.
  (** Initialize, pre ads:29-33, body adb:26-29 *)
  Definition initialize (b : option buffer) : res (context * option buffer) :=
    match b with
    | None => Err "Initialize precondition"
    | Some b' =>
      check (0 <? Z.of_nat (length (b_data b'))) && (b_last b' <? index_last) msg "Initialize precondition";
      initialize_bounds b (b_first b') (b_last b') (First_Bit_Index (b_first b')) (Last_Bit_Index (b_last b'))
    end.
  (** Take_Buffer, pre ads:74-75, body adb:37-41 *)
  Definition take_buffer (c : context) : res (context * option buffer) :=
    check has_buffer c msg "Take_Buffer precondition";
    let* c' := checked (mkContext (buffer_first c) (buffer_last c) (first c) (last c) (sequence_last c) None (state_valid c) (next_element c)) in
    Ok (c', buf c).

  (** Read_Next_Element adb:7-24 *)
  Definition read_next_element (c : context) : res context :=
    match buf c with
    | None => Err "Read_Next_Element precondition"
    | Some b =>
      check size <=? last c - sequence_last c msg "Read_Next_Element precondition";
      let* last_bit := bit_index (sequence_last c + size) in
      let* first_bit := bit_index (sequence_last c + 1) in
      let bf := Byte_Index first_bit in
      let bl := Byte_Index last_bit in
      if (b_first b <=? bf) && (bl <=? b_last b) && (bf <=? bl) then
        let* v := read_field size b first_bit last_bit in
        let c' := mkContext (buffer_first c) (buffer_last c) (first c) (last c) (sequence_last c) (buf c) (state_valid c) v in
        Ok (if valid_element c' then c'
            else mkContext (buffer_first c) (buffer_last c) (first c) (last c) (sequence_last c) (buf c) false v)
      else Ok c
    end.
  (** Next, pre ads:93-96, body adb:52-56 *)
  Definition next (c : context) : res context :=
    check has_buffer c && has_element c msg "Next precondition";
    let* c1 := read_next_element c in
    let* s := bit_length (sequence_last c1 + size) in
    checked (mkContext (buffer_first c1) (buffer_last c1) (first c1) (last c1) s (buf c1) (state_valid c1) (next_element c1)).
  (** Get_Element, pre ads:115-117, body adb:58-59 *)
  Definition get_element (c : context) : res element :=
    check valid_element c msg "Get_Element precondition"; Ok (to_actual (next_element c)).

  (** Append_Element, pre ads:119-124, body adb:61-77 *)
  Definition append_element (c : context) (v : element) : res context :=
    match buf c with
    | None => Err "Append_Element precondition"
    | Some b =>
      check state_valid c && valid (to_base v) && (size <=? available_space c) msg "Append_Element precondition";
      let* last_bit := bit_index (sequence_last c + size) in
      let* first_bit := bit_index (sequence_last c + 1) in
      let f := Byte_Index first_bit in
      let l := Byte_Index last_bit in
      let* b' := (if (b_first b <=? f) && (l <=? b_last b) && (f <=? l)
                  then write_field size (to_base v) b first_bit last_bit else Ok b) in
      let* s := bit_length (sequence_last c + size) in
      checked (mkContext (buffer_first c) (buffer_last c) (first c) (last c) s (Some b') (state_valid c) (next_element c))
    end.

  (** the use of the package: appending a list of elements, and reading all elements
      while Has_Element (Ctx) loop Next (Ctx); if Valid_Element (Ctx) ... Get_Element *)
  Fixpoint append_all (c : context) (vs : list element) : res context :=
    match vs with
    | [] => Ok c
    | v :: t => let* c' := append_element c v in append_all c' t
    end.
  Fixpoint read_all (fuel : nat) (c : context) : res (list element * context) :=
    if has_element c then
      match fuel with
      | O => Err "out of fuel"
      | S n =>
        let* c' := next c in
        if valid_element c' then
          let* v := get_element c' in
          let* r := read_all n c' in
          Ok (v :: fst r, snd r)
        else read_all n c'
      end
    else Ok ([], c).
End ScalarSequence.
