(** Model of the access to array fields of generated messages: Take_Buffer,
    Switch_To_<Field>, Complete_<Field> and Update_<Field> (generator.py:867-903,
    1767-2184,3044-3058), with the sequences of scalars of ScalarSeq.v.

    Switch_To_<Field> moves the buffer out of the context of the message into the context
    of a sequence, Update_<Field> moves it back.  The assertions in the generated code
    (pragma Assert) are not modelled. *)
From Coq Require Import String List ZArith Bool.
From Verif Require Import Base Expr MsgGraph AdaTypes AdaBuffer GenCode.
From Verif Require ScalarSeq.
Import ListNotations.
Local Open Scope string_scope.
Local Open Scope list_scope.
Local Open Scope Z_scope.
Local Open Scope res_scope.

(** Types.Index'Last, rflx_generic_types.ads:7-9,30-34: with it the last bit of sequences is
    that of messages ([AdaTypes.Bit_Length_Last]) *)
Definition index_last : Z := 2 ^ 31 - 1.

(** the instance of the generic scalar sequence of an array type, generator.py:2447-2510: the
    size of the elements and Valid; the elements are numbers, taken modulo 2 ** size *)
Record array := mkArray { a_size : Z; a_valid : Z -> bool }.
Definition to_base (a : array) (v : Z) : Z := v mod 2 ^ a_size a.
(** Append_Element and Next of the instance, rflx_scalar_sequence.adb:52-77 *)
Definition append_element (a : array) : ScalarSeq.context -> Z -> res ScalarSeq.context :=
  ScalarSeq.append_element index_last Z (a_size a) (a_valid a) (to_base a).
Definition next_element (a : array) : ScalarSeq.context -> res ScalarSeq.context :=
  ScalarSeq.next index_last (a_size a) (a_valid a).

Section Array.
  Context (s : list link) (fields : list field) (types : field -> ftype) (constants : name -> option Z).
  Local Notation valid_next := (valid_next s fields types constants).
  Local Notation field_first := (field_first s fields types constants).
  Local Notation field_size := (field_size s fields types constants).
  Local Notation field_last := (field_last s fields types constants).

  (** Take_Buffer, generator.py:867-903 *)
  Definition take_buffer (x : context) : res (context * option buffer) :=
    check has_buffer x msg "Take_Buffer precondition"; Ok (set_buffer x None, x_buffer x).

  (** the precondition of Switch_To_<Field>, generator.py:1783-1838 *)
  Definition switch_pre (x : context) (f : field) : res bool :=
    and_then [Ok (has_buffer x); valid_next x f;
              (let* z := field_size x f in Ok (0 <? z));
              (let* a := field_first x f in Ok (a mod 8 =? 1));
              (let* z := field_size x f in field_cond s fields types constants x f 0 z);
              sufficient_space s fields types constants x f].
  (** Switch_To_<Field>, generator.py:1936-1979; initialize_field_statements,
      common.py:546-597 *)
  Definition switch (x : context) (f : field) : res (context * ScalarSeq.context) :=
    let* a := field_first x f in
    let* l := field_last x f in
    let* y := (if invalid (x_cursors x f)
               then enter_field s fields types constants S_Structural_Valid (reset_dependent_fields fields x f) f a l 0
               else Ok x) in
    let* r := take_buffer y in
    let* q := ScalarSeq.initialize_bounds index_last (snd r) (x_buffer_first (fst r)) (x_buffer_last (fst r)) a l in
    Ok (fst r, fst q).

  (** Valid and Size of a sequence, rflx_scalar_sequence.ads:182-192 *)
  Definition seq_size (c : ScalarSeq.context) : Z := ScalarSeq.sequence_last c - ScalarSeq.first c + 1.
  (** Complete_<Field>, generator.py:1982-2030 *)
  Definition complete_field (x : context) (f : field) (c : ScalarSeq.context) : res bool :=
    let* vn := valid_next x f in
    check vn msg "Complete precondition";
    let* z := field_size x f in
    Ok (ScalarSeq.state_valid c && (seq_size c =? z)).

  (** switch_update_conditions, generator.py:3044-3058 *)
  Definition switch_update_conditions (x : context) (f : field) (c : ScalarSeq.context) : list (res bool) :=
    [Ok (negb (has_buffer x)); Ok (ScalarSeq.has_buffer c);
     Ok (x_buffer_first x =? ScalarSeq.buffer_first c); Ok (x_buffer_last x =? ScalarSeq.buffer_last c);
     (let* a := field_first x f in Ok (ScalarSeq.first c =? a));
     (let* l := field_last x f in Ok (ScalarSeq.last c =? l))].
  (** the precondition of Update_<Field>, generator.py:2061-2070 *)
  Definition update_pre (x : context) (f : field) (c : ScalarSeq.context) : res bool :=
    and_then ([Ok (present x f); complete_field x f c] ++ switch_update_conditions x f c).
  (** Update_<Field>, generator.py:2120-2184 *)
  Definition update (x : context) (f : field) (c : ScalarSeq.context) : res (context * ScalarSeq.context) :=
    let valid_sequence := ScalarSeq.state_valid c in
    let* r := ScalarSeq.take_buffer index_last c in
    let y := set_buffer x (snd r) in
    if valid_sequence then
      let k := x_cursors y f in
      check structural_valid k msg "discriminant check";
      Ok (set_cursor y f (mkCursor S_Valid (c_pred k) (c_first k) (c_last k) (c_fld k) (c_value k)), fst r)
    else Ok (y, fst r).

  (** the precondition of Set_<Field>_Empty, serializer.py:399-420 *)
  Definition set_empty_pre (x : context) (f : field) : res bool :=
    and_then [set_composite_pre s fields types constants x f;
              (let* z := field_size x f in Ok (z =? 0))].
End Array.
