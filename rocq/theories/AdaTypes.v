(** Model of the Ada run-time library used by all generated code to read and
    write scalar fields:
    rflx/templates/rflx_arithmetic.{ads,adb} and
    rflx/templates/rflx_generic_types.{ads,adb}.

    A U64 is a [Z]; every operation whose Ada counterpart may leave the range of
    U64 (the type is annotated No_Wrap_Around) or violate a precondition returns
    [Err].  A [Bytes] array is the list of its bytes in index order; the bounds
    of the array are irrelevant because the code addresses it relative to
    Data'Last only. *)
From Coq Require Import String List ZArith Bool.
From Verif Require Import Base.
Import ListNotations.
Local Open Scope string_scope.
Local Open Scope Z_scope.
Local Open Scope res_scope.

(** rflx_arithmetic.ads:7-8 (U64 is mod 2**64, No_Wrap_Around) *)
Definition U64_Size : Z := 64.
Definition in_U64 (v : Z) : bool := (0 <=? v) && (v <? 2 ^ 64).

(** range check after an arithmetic operation on U64, rflx_arithmetic.ads:7-8 *)
Definition u64 (v : Z) : res Z :=
  check in_U64 v msg "U64 range"; Ok v.

(** rflx_arithmetic.ads:11-15, rflx_arithmetic.adb:7-8 *)
Definition Pow2 (e : Z) : res Z :=
  check (0 <=? e) && (e <? U64_Size) msg "Pow2 precondition";
  u64 (2 ^ e).

(** rflx_arithmetic.ads:17-21, rflx_arithmetic.adb:10-11 *)
Definition Mod_Pow2 (v e : Z) : res Z :=
  check (0 <=? e) && (e <? U64_Size) msg "Mod_Pow2 precondition";
  let* p := Pow2 e in
  Ok (v mod p).

(** rflx_arithmetic.ads:23-31, rflx_arithmetic.adb:45-51; Value_Size is
    Positive, Length is Natural *)
Definition Right_Shift (v value_size len : Z) : res Z :=
  check (1 <=? value_size) && (0 <=? len) msg "Right_Shift parameter range";
  check (value_size <=? U64_Size) && (len <? U64_Size)
        && (len <=? value_size)
        && ((0 <=? value_size - len) && (value_size - len <=? U64_Size - 1))
        && (if value_size <? U64_Size then v <? 2 ^ value_size else true)
    msg "Right_Shift precondition";
  let* p := Pow2 len in
  let r := v / p in
  check r <? 2 ^ (value_size - len) msg "Right_Shift postcondition";
  Ok r.

(** rflx_arithmetic.ads:33-48, rflx_arithmetic.adb:53-59 *)
Definition Left_Shift (v value_size len : Z) : res Z :=
  check (1 <=? value_size) && (0 <=? len) msg "Left_Shift parameter range";
  check (value_size <=? U64_Size) && (len <? U64_Size)
        && ((1 <=? value_size + len) && (value_size + len <=? U64_Size))
        && (if value_size <? U64_Size then v <? 2 ^ value_size else true)
    msg "Left_Shift precondition";
  let* r := u64 (v * 2 ^ len) in
  check (if value_size + len <? U64_Size
         then (r <=? 2 ^ (value_size + len) - 2 ^ len)
              && (2 ^ len <=? 2 ^ (value_size + len))
         else r <=? (2 ^ 64 - 1) - 2 ^ len + 1)
    msg "Left_Shift postcondition";
  Ok r.

(** rflx_generic_types.adb:51-74 *)
Definition U64_Extract_Intermediate
    (data_current data_next lse_size lse_offset shift_length : Z) : res Z :=
  check (data_current <? 2 ^ 8) && (data_next <? 2 ^ 8)
        && ((0 <=? lse_size) && (lse_size <=? 8))
        && ((0 <=? lse_offset) && (lse_offset <=? 7))
        && ((0 <=? shift_length) && (shift_length <=? U64_Size - 8))
        && (lse_size + lse_offset =? 8)
    msg "U64_Extract_Intermediate precondition";
  let* current := Right_Shift data_current 8 lse_offset in
  let* p := Pow2 lse_offset in
  let* next :=
    (if 0 <? lse_offset
     then Left_Shift (data_next mod p) lse_offset lse_size
     else Ok (data_next mod p)) in
  let* s := u64 (current + next) in
  let* r := Left_Shift s 8 shift_length in
  check (if 8 + shift_length <? U64_Size
         then r <=? 2 ^ (8 + shift_length) - 2 ^ shift_length
         else r <=? (2 ^ 64 - 1) - 2 ^ shift_length + 1)
    msg "U64_Extract_Intermediate postcondition";
  Ok r.

(** rflx_generic_types.adb:76-98 *)
Definition U64_Extract_Remaining (data element_count mse_size lse_offset : Z) : res Z :=
  check ((0 <=? mse_size) && (mse_size <=? 8))
        && ((0 <=? lse_offset) && (lse_offset <=? 7))
        && ((1 <=? mse_size - lse_offset) && (mse_size - lse_offset <=? 8))
        && ((0 <=? element_count) && (element_count <=? 7))
    msg "U64_Extract_Remaining precondition";
  let* p := Pow2 mse_size in
  let* remaining_bits := Right_Shift (data mod p) mse_size lse_offset in
  let* r := Left_Shift remaining_bits (mse_size - lse_offset) (8 * element_count) in
  check (let t := mse_size - lse_offset + 8 * element_count in
         if t <? U64_Size
         then (r <=? 2 ^ t - 2 ^ (8 * element_count)) && (2 ^ (8 * element_count) <=? 2 ^ t)
         else r <=? (2 ^ 64 - 1) - 2 ^ (8 * element_count) + 1)
    msg "U64_Extract_Remaining postcondition";
  Ok r.

(** Data (Index (Long_Integer (Data'Last) - Idx)) with the preconditions
    Idx >= 0 and Idx < Data'Length;
    rflx_generic_types.adb:119-121,129 (D) and 191-197 (Read) *)
Definition Read (data : list Z) (idx : Z) : res Z :=
  check (0 <=? idx) && (idx <? Z.of_nat (length data)) msg "index";
  match nth_error data (length data - 1 - Z.to_nat idx) with
  | Some b => Ok b
  | None => Err "index"
  end.

(** rflx_generic_types.adb:119-133; Val mod Mask is converted back to Byte *)
Definition D (data : list Z) (lse_offset value_size mse_index idx : Z) : res Z :=
  let e := (lse_offset + value_size + 8 - 1) mod 8 + 1 in
  let mask := if idx <? mse_index then 2 ^ 8 else 2 ^ e in
  let* v := Read data idx in
  Ok (v mod mask).

(** rflx_generic_types.adb:137-147; the loop over I in LSE_Index .. MSE_Index-1;
    [count] iterations remain, the loop variable is [i]; the loop invariants are
    checked *)
Fixpoint Extract_Loop (data : list Z) (lse_offset value_size mse_index lse_index : Z)
    (count : nat) (i result : Z) : res Z :=
  match count with
  | O => Ok result
  | S count' =>
    let* c := D data lse_offset value_size mse_index i in
    let* n := D data lse_offset value_size mse_index (i + 1) in
    let* x := U64_Extract_Intermediate c n (8 - lse_offset) lse_offset (8 * (i - lse_index)) in
    let* result' := u64 (result + x) in
    check (i - lse_index <=? 7) msg "loop invariant";
    check (if negb (8 + 8 * (i - lse_index) =? U64_Size)
           then result' <? 2 ^ (8 + 8 * (i - lse_index)) else true)
      msg "loop invariant";
    Extract_Loop data lse_offset value_size mse_index lse_index count' (i + 1) result'
  end.

(** precondition of U64_Extract, rflx_generic_types.adb:103-107; Natural'Size is
    31 and Long_Integer'Size is 64 *)
Definition Extract_Pre (data : list Z) (off value_size : Z) : bool :=
  ((1 <=? value_size) && (value_size <=? U64_Size))
  && ((off + value_size - 1) / 8 <? Z.of_nat (length data))
  && ((off + value_size - 1) / 8 <=? 31)
  && (8 - off mod 8 <? 64 - 1).

(** rflx_generic_types.adb:100-159 *)
Definition U64_Extract (data : list Z) (off value_size : Z) : res Z :=
  check Extract_Pre data off value_size msg "U64_Extract precondition";
  let lse_index := off / 8 in
  let mse_index := (off + value_size - 1) / 8 in
  let lse_offset := off mod 8 in
  let mse_size := (lse_offset + value_size + 8 - 1) mod 8 + 1 in
  let* result := Extract_Loop data lse_offset value_size mse_index lse_index
                   (Z.to_nat (mse_index - lse_index)) lse_index 0 in
  let* result :=
    (if lse_offset <? mse_size
     then let element_count := mse_index - lse_index in
          let* d := D data lse_offset value_size mse_index mse_index in
          let* v := U64_Extract_Remaining d element_count mse_size lse_offset in
          u64 (result + v)
     else Ok result) in
  let* r :=
    (if value_size <? U64_Size
     then let* p := Pow2 value_size in Ok (result mod p)
     else Ok result) in
  check (if value_size <? U64_Size then r <? 2 ^ value_size else true)
    msg "U64_Extract postcondition";
  Ok r.

(** replace element number [n] of a list *)
Fixpoint set_nth {A} (l : list A) (n : nat) (x : A) : list A :=
  match l, n with
  | [], _ => []
  | _ :: t, O => x :: t
  | h :: t, S n' => h :: set_nth t n' x
  end.

(** rflx_generic_types.adb:199-205; Element is converted with Byte'Val, which
    checks the range of Byte *)
Definition Write (data : list Z) (idx element : Z) : res (list Z) :=
  check (0 <=? idx) && (idx <? Z.of_nat (length data)) msg "index";
  check (0 <=? element) && (element <? 2 ^ 8) msg "Byte'Val range";
  Ok (set_nth data (length data - 1 - Z.to_nat idx) element).

(** rflx_generic_types.adb:263-269; state is (Data, RV) *)
Fixpoint Insert_Loop (value_size lse_size lse_index : Z) (count : nat) (i : Z)
    (data : list Z) (rv : Z) : res (list Z * Z) :=
  match count with
  | O => Ok (data, rv)
  | S count' =>
    let rest := value_size - lse_size - (i - lse_index - 1) * 8 in
    check rv <? 2 ^ rest msg "loop invariant";
    let* data' := Write data i (rv mod 2 ^ 8) in
    let* rv' := Right_Shift rv rest 8 in
    Insert_Loop value_size lse_size lse_index count' (i + 1) data' rv'
  end.

(** precondition of U64_Insert, rflx_generic_types.adb:177-180 *)
Definition Insert_Pre (val : Z) (data : list Z) (off value_size : Z) : bool :=
  (1 <=? value_size) && (value_size <=? U64_Size)
  && (if value_size <? U64_Size then val <? 2 ^ value_size else true)
  && ((off + value_size - 1) / 8 <? Z.of_nat (length data)).

(** rflx_generic_types.adb:173-294 *)
Definition U64_Insert (val : Z) (data : list Z) (off value_size : Z) : res (list Z) :=
  check Insert_Pre val data off value_size msg "U64_Insert precondition";
  let lse_index := off / 8 in
  let mse_index := (off + value_size - 1) / 8 in
  let lse_offset := off mod 8 in
  let lse_size := 8 - lse_offset in
  let mse_size := (lse_offset + value_size + 8 - 1) mod 8 + 1 in
  let mse_offset := 8 - mse_size in
  if lse_index =? mse_index then
    let l_size := lse_offset in
    let v_size := value_size in
    let* lr := Read data lse_index in
    let* l_bits := Mod_Pow2 lr l_size in
    let* ur := Read data mse_index in
    let* u_bits := Right_Shift ur 8 (l_size + v_size) in
    let* v_value := Left_Shift val v_size l_size in
    let* u_value :=
      (if l_size + v_size <? 8
       then Left_Shift u_bits (8 - l_size - v_size) (l_size + v_size)
       else Ok u_bits) in
    let* s1 := u64 (l_bits + v_value) in
    let* s := u64 (s1 + u_value) in
    check s <? 2 ^ 8 msg "assertion";
    Write data lse_index s
  else
    let* lr := Read data lse_index in
    let* l_bits := Mod_Pow2 lr lse_offset in
    let* v_bits := Mod_Pow2 val lse_size in
    let* v_value := Left_Shift v_bits lse_size lse_offset in
    let* s := u64 (l_bits + v_value) in
    let* data1 := Write data lse_index s in
    let* rv := Right_Shift val value_size lse_size in
    let* st := Insert_Loop value_size lse_size lse_index
                 (Z.to_nat (mse_index - 1 - lse_index)) (lse_index + 1) data1 rv in
    let '(data2, rv2) := st in
    let* v_bits2 := Mod_Pow2 rv2 mse_size in
    let* ur := Read data2 mse_index in
    let* u_bits := Right_Shift ur 8 mse_size in
    let* u_value :=
      (if 0 <? mse_offset then Left_Shift u_bits mse_offset mse_size else Ok u_bits) in
    let* s2 := u64 (v_bits2 + u_value) in
    Write data2 mse_index s2.

(** rflx_generic_types.ads:50-57, rflx_generic_types.adb:161-171: instance for a
    modular type of [size] bits that covers its entire range (compile-time
    check), so the conversion to Value is the identity *)
Definition Extract (size : Z) (data : list Z) (off : Z) : res Z :=
  U64_Extract data off size.

(** rflx_generic_types.ads:59-65, rflx_generic_types.adb:296-307 *)
Definition Insert (size : Z) (val : Z) (data : list Z) (off : Z) : res (list Z) :=
  U64_Insert val data off size.

(** rflx_generic_types.ads:39-40 *)
Definition Byte_Index (bit_idx : Z) : Z := (bit_idx - 1) / 8 + 1.
(** rflx_generic_types.ads:42-43 *)
Definition First_Bit_Index (idx : Z) : Z := (idx - 1) * 8 + 1.
(** rflx_generic_types.ads:45-46 *)
Definition Last_Bit_Index (idx : Z) : Z := (idx - 1) * 8 + 8.
