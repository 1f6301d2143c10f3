(** Buffers with bounds and the access to a bit range of a buffer, as it appears in
    rflx/templates/rflx_scalar_sequence.adb:7-24,60-76 and in the code generated by
    rflx/generator/common.py (field_byte_location_declarations), parser.py and
    serializer.py. *)
From Coq Require Import String List ZArith Bool.
From Verif Require Import Base AdaTypes.
Import ListNotations.
Local Open Scope string_scope.
Local Open Scope list_scope.
Local Open Scope Z_scope.
Local Open Scope res_scope.

(** Types.Bytes (rflx_generic_types.ads:8-10): the index of the first byte and the bytes *)
Record buffer := mkBuffer { b_first : Z; b_data : list Z }.
(** Buffer'Last *)
Definition b_last (b : buffer) : Z := b_first b + Z.of_nat (length (b_data b)) - 1.

(** Buffer.all (F .. L): Ada checks the bounds unless the range is empty *)
Definition slice (b : buffer) (f l : Z) : res (list Z) :=
  if f <=? l then
    check (b_first b <=? f) && (l <=? b_last b) msg "slice index";
    Ok (firstn (Z.to_nat (l - f + 1)) (skipn (Z.to_nat (f - b_first b)) (b_data b)))
  else Ok [].
(** copying back of Buffer.all (F .. L) after it was passed as in out parameter *)
Definition put_slice (b : buffer) (f : Z) (new : list Z) : buffer :=
  mkBuffer (b_first b)
    (firstn (Z.to_nat (f - b_first b)) (b_data b) ++ new
     ++ skipn (Z.to_nat (f - b_first b) + length new) (b_data b)).

(** Offset of the last bit of a field: Types.Offset ((8 - (Last_Bit mod 8)) mod 8),
    rflx_scalar_sequence.adb:14,71 *)
Definition offset_of (last_bit : Z) : Z := (8 - last_bit mod 8) mod 8.
(** Extract (Buffer (Byte_Index (First_Bit) .. Byte_Index (Last_Bit)), Offset),
    rflx_scalar_sequence.adb:11-18; [first_bit] and [last_bit] delimit the field *)
Definition read_field (size : Z) (b : buffer) (first_bit last_bit : Z) : res Z :=
  let* d := slice b (Byte_Index first_bit) (Byte_Index last_bit) in
  Extract size d (offset_of last_bit).
(** Insert (Value, Buffer (First .. Last), Offset), rflx_scalar_sequence.adb:68-73 *)
Definition write_field (size : Z) (v : Z) (b : buffer) (first_bit last_bit : Z) : res buffer :=
  let* d := slice b (Byte_Index first_bit) (Byte_Index last_bit) in
  let* d' := Insert size v d (offset_of last_bit) in
  Ok (put_slice b (Byte_Index first_bit) d').
