(** C40, second half: the slice of the buffer that belongs to a field. *)
From Coq Require Import String List ZArith Bool Lia.
From Verif Require Import Base AdaTypes AdaTypesFacts P_AdaTypes AdaBuffer AdaBufferFacts.
Import ListNotations.
Local Open Scope list_scope.
Local Open Scope Z_scope.

(** The slice from the byte of the first bit to the byte of the last bit of a field
    consists of exactly the bytes that contain a bit of the field. *)
Theorem C40_touched : forall f l i, f <= l ->
  (Byte_Index f <= i <= Byte_Index l <-> exists bit, f <= bit <= l /\ First_Bit_Index i <= bit <= Last_Bit_Index i).
Proof.
  intros f l i LE. unfold First_Bit_Index, Last_Bit_Index. pose proof (byte_index_bounds f) as F. pose proof (byte_index_bounds l) as L. split.
  - intros [A B]. exists (Z.max f (8 * (i - 1) + 1)). lia.
  - intros (bit & A & B). lia.
Qed.

(** The slice can be taken if and only if all bits of the field lie in the buffer; its
    bytes are those of the buffer. *)
Theorem C40_slice : forall b f l, f <= l ->
  ((exists d, slice b (Byte_Index f) (Byte_Index l) = Ok d) <->
   forall bit, f <= bit <= l -> exists i, b_first b <= i <= b_last b /\ First_Bit_Index i <= bit <= Last_Bit_Index i) /\
  forall d, slice b (Byte_Index f) (Byte_Index l) = Ok d ->
    Z.of_nat (length d) = Byte_Index l - Byte_Index f + 1 /\
    forall i, Byte_Index f <= i <= Byte_Index l -> nth (Z.to_nat (i - Byte_Index f)) d 0 = nth (Z.to_nat (i - b_first b)) (b_data b) 0.
Proof.
  intros b f l LE. pose proof (byte_index_bounds f) as F. pose proof (byte_index_bounds l) as L.
  pose proof (byte_index_mono f l LE) as M.
  assert (IN : forall d, slice b (Byte_Index f) (Byte_Index l) = Ok d -> b_first b <= Byte_Index f /\ Byte_Index l <= b_last b).
  { intros d S. unfold slice in S. destruct (Z.leb_spec (Byte_Index f) (Byte_Index l)); [|lia].
    destruct (Z.leb_spec (b_first b) (Byte_Index f)); [|discriminate]. destruct (Z.leb_spec (Byte_Index l) (b_last b)); [|discriminate]. lia. }
  unfold First_Bit_Index, Last_Bit_Index. split; [split|].
  - intros (d & S) bit B. apply IN in S. exists (Byte_Index bit). pose proof (byte_index_bounds bit). lia.
  - intros H. destruct (H f ltac:(lia)) as (i & I1 & I2). destruct (H l ltac:(lia)) as (j & J1 & J2).
    eexists. apply slice_ok; lia.
  - intros d S. destruct (IN d S) as [A B]. split; [exact (slice_length _ _ _ M A B d S)|].
    intros i I. rewrite (slice_nth _ _ _ M A B d (i - Byte_Index f) S) by lia. f_equal. lia.
Qed.

(** Reading a field through its slice gives the number formed by its bits, the last bit
    of the field being the least significant one; writing changes these bits only. *)
Theorem C40_field : forall b size f l, wf_buf b -> 1 <= size <= 64 -> l = f + size - 1 -> in_buf b f l ->
  (exists v, read_field size b f l = Ok v /\ 0 <= v < 2 ^ size /\ forall k, 0 <= k < size -> Z.testbit v k = bit_at b (l - k)) /\
  forall v, 0 <= v < 2 ^ size -> exists b', write_field size v b f l = Ok b' /\
    b_first b' = b_first b /\ length (b_data b') = length (b_data b) /\ read_field size b' f l = Ok v /\
    (forall i, First_Bit_Index (b_first b) <= i -> i < f \/ l < i -> bit_at b' i = bit_at b i).
Proof.
  intros b size f l W SZ -> IN. assert (SP : f + size - 1 - f + 1 = size) by lia.
  split; [exact (read_field_spec size b f _ W SZ SP IN)|]. intros v V.
  destruct (write_field_spec size b f _ W SZ SP IN v V) as (b' & E & W' & F & L & S & O).
  exists b'. split; [exact E|]. split; [exact F|]. split; [exact L|]. split; [|exact O].
  assert (IN' : in_buf b' f (f + size - 1)) by (unfold in_buf, b_last in *; rewrite F, L; exact IN).
  destruct (read_field_spec size b' f _ W' SZ SP IN') as (u & R & U & T). rewrite R. f_equal.
  apply (value_bits size); [lia|exact U|exact V|]. intros k K. now rewrite T, S.
Qed.

(** A field of 10 bits behind one of 5 bits touches two bytes of a buffer that starts at
    index 3. *)
Definition three_bytes : buffer := mkBuffer 3 [1; 255; 7].
Example C40_slice_case :
  Byte_Index 22 = 3 /\ Byte_Index 31 = 4 /\ slice three_bytes 3 4 = Ok [1; 255] /\ wf_buf three_bytes /\ in_buf three_bytes 22 31 /\
  read_field 10 three_bytes 22 31 = Ok 255 /\ write_field 10 0 three_bytes 22 31 = Ok (mkBuffer 3 [0; 1; 7]).
Proof.
  repeat split; try (vm_compute; reflexivity); try (vm_compute; discriminate).
  all: match goal with J : In _ _ |- _ => destruct J as [<-|[<-|[<-|[]]]]; lia | _ => idtac end.

Qed.
Print Assumptions C40_touched.
Print Assumptions C40_slice.
Print Assumptions C40_field.
