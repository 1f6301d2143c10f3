(** Facts about reading and writing bit ranges of buffers. *)
From Coq Require Import String List ZArith Bool Lia.
From Verif Require Import Base AdaTypes AdaBuffer P_AdaTypes.
Import ListNotations.
Local Open Scope list_scope.
Local Open Scope Z_scope.

(** bit number [i] of a buffer, counted from the first (most significant) bit of the
    byte with index 1 *)
Definition bit_at (b : buffer) (i : Z) : bool :=
  Z.testbit (nth (Z.to_nat (Byte_Index i - b_first b)) (b_data b) 0) (7 - (i - 1) mod 8).
Definition wf_buf (b : buffer) : Prop := 1 <= b_first b /\ wf_buffer (b_data b).
(** a bit range that lies in the buffer *)
Definition in_buf (b : buffer) (f l : Z) : Prop :=
  First_Bit_Index (b_first b) <= f /\ l <= Last_Bit_Index (b_last b).

Lemma byte_index_bounds i : 8 * (Byte_Index i - 1) + 1 <= i <= 8 * Byte_Index i.
Proof. unfold Byte_Index. pose proof (Z.div_mod (i - 1) 8). pose proof (Z.mod_pos_bound (i - 1) 8). lia. Qed.
Lemma byte_index_mono i j : i <= j -> Byte_Index i <= Byte_Index j.
Proof. intros. pose proof (byte_index_bounds i). pose proof (byte_index_bounds j). lia. Qed.
Lemma byte_index_eq i n : 8 * (n - 1) + 1 <= i <= 8 * n -> Byte_Index i = n.
Proof. intros. pose proof (byte_index_bounds i). lia. Qed.
Lemma bit_in_byte i : (i - 1) mod 8 = i - 1 - 8 * (Byte_Index i - 1).
Proof. unfold Byte_Index. pose proof (Z.div_mod (i - 1) 8 ltac:(lia)). lia. Qed.
Lemma offset_spec l : 0 <= offset_of l < 8 /\ 8 * Byte_Index l = l + offset_of l.
Proof.
  unfold offset_of. split; [apply Z.mod_pos_bound; lia|].
  pose proof (byte_index_bounds l) as B.
  assert (E : (8 - l mod 8) mod 8 = 8 * Byte_Index l - l); [|lia].
  pose proof (Z.div_mod l 8 ltac:(lia)) as D. pose proof (Z.mod_pos_bound l 8 ltac:(lia)) as M.
  destruct (Z.eq_dec (l mod 8) 0) as [Z0|NZ].
  - rewrite Z0. change ((8 - 0) mod 8) with 0. lia.
  - rewrite Z.mod_small by lia. lia.
Qed.

Lemma nth_firstn_lt {A} (d : A) l : forall n i, (i < n)%nat -> nth i (firstn n l) d = nth i l d.
Proof. induction l as [|x l IH]; intros [|n] [|i] H; cbn; try reflexivity; try lia. apply IH. lia. Qed.
Lemma nth_skipn_add {A} (d : A) l : forall n i, nth i (skipn n l) d = nth (n + i) l d.
Proof. induction l as [|x l IH]; intros [|n] i; cbn; try reflexivity; [now destruct i|apply IH]. Qed.

Lemma in_firstn {A} (x : A) n l : In x (firstn n l) -> In x l.
Proof. revert n. induction l as [|y l IH]; intros [|n]; cbn; try tauto. intros [->|I]; [now left|right; eauto]. Qed.
Lemma in_skipn {A} (x : A) n l : In x (skipn n l) -> In x l.
Proof. revert n. induction l as [|y l IH]; intros [|n]; cbn; try tauto. intros I. right; eauto. Qed.

Section Slice.
  Context (b : buffer) (f l : Z).
  Hypothesis (LE : f <= l) (F : b_first b <= f) (L : l <= b_last b).
  Lemma slice_ok : slice b f l = Ok (firstn (Z.to_nat (l - f + 1)) (skipn (Z.to_nat (f - b_first b)) (b_data b))).
  Proof.
    unfold slice. destruct (Z.leb_spec f l); [|lia].
    destruct (Z.leb_spec (b_first b) f); [|lia]. destruct (Z.leb_spec l (b_last b)); [|lia]. reflexivity.
  Qed.
  Lemma slice_length d : slice b f l = Ok d -> Z.of_nat (length d) = l - f + 1.
  Proof.
    rewrite slice_ok. intros E. apply Ok_inj in E. subst d. unfold b_last in L.
    rewrite firstn_length, skipn_length. lia.
  Qed.
  Lemma slice_wf d : wf_buffer (b_data b) -> slice b f l = Ok d -> wf_buffer d.
  Proof.
    rewrite slice_ok. intros W E. apply Ok_inj in E. subst d. intros x I. apply W.
    eapply in_skipn, in_firstn, I.
  Qed.
  Lemma slice_nth d j : slice b f l = Ok d -> 0 <= j -> j < l - f + 1 ->
    nth (Z.to_nat j) d 0 = nth (Z.to_nat (f - b_first b + j)) (b_data b) 0.
  Proof.
    rewrite slice_ok. intros E J1 J2. apply Ok_inj in E. subst d.
    rewrite nth_firstn_lt by lia. rewrite nth_skipn_add. f_equal. lia.
  Qed.
  Lemma slice_bit d k : slice b f l = Ok d -> 0 <= k -> k < 8 * (l - f + 1) ->
    buffer_bit d k = bit_at b (8 * l - k).
  Proof.
    intros E K1 K2. pose proof (slice_length d E) as LEN. unfold buffer_bit, bit_at.
    pose proof (Z.div_mod k 8 ltac:(lia)) as DM. pose proof (Z.mod_pos_bound k 8 ltac:(lia)) as MB.
    assert (BI : Byte_Index (8 * l - k) = l - k / 8) by (apply byte_index_eq; lia).
    rewrite bit_in_byte, BI.
    replace (7 - (8 * l - k - 1 - 8 * (l - k / 8 - 1))) with (k mod 8) by lia.
    destruct (Z.leb_spec 0 k); [|lia]. destruct (Z.ltb_spec (k / 8) (Z.of_nat (length d))); [|lia].
    rewrite andb_true_r, andb_true_l. f_equal.
    replace (length d - 1 - Z.to_nat (k / 8))%nat with (Z.to_nat (l - f - k / 8)) by lia.
    rewrite (slice_nth d) by (auto; lia). f_equal. lia.
  Qed.
  Lemma put_slice_same_length d : Z.of_nat (length d) = l - f + 1 ->
    length (b_data (put_slice b f d)) = length (b_data b).
  Proof.
    intros E. unfold put_slice. cbn [b_data]. unfold b_last in L.
    rewrite !app_length, firstn_length, skipn_length. lia.
  Qed.
  Lemma put_slice_wf d : wf_buffer (b_data b) -> wf_buffer d -> wf_buffer (b_data (put_slice b f d)).
  Proof.
    intros W D x I. unfold put_slice in I. cbn [b_data] in I.
    apply in_app_or in I as [I|I]; [|apply in_app_or in I as [I|I]].
    - eapply W, in_firstn, I.
    - exact (D x I).
    - eapply W, in_skipn, I.
  Qed.
  Lemma put_slice_slice d : Z.of_nat (length d) = l - f + 1 -> slice (put_slice b f d) f l = Ok d.
  Proof.
    intros E. pose proof (put_slice_same_length d E) as SL.
    assert (LL : b_last (put_slice b f d) = b_last b) by (unfold b_last; cbn [b_first put_slice]; now rewrite SL).
    unfold slice. rewrite LL. change (b_first (put_slice b f d)) with (b_first b).
    destruct (Z.leb_spec f l); [|lia]. destruct (Z.leb_spec (b_first b) f); [|lia]. destruct (Z.leb_spec l (b_last b)); [|lia].
    cbn [andb]. f_equal. unfold put_slice. cbn [b_data]. unfold b_last in L.
    rewrite skipn_app, firstn_length.
    replace (Z.to_nat (f - b_first b) - Nat.min (Z.to_nat (f - b_first b)) (length (b_data b)))%nat with 0%nat by lia.
    rewrite skipn_all2 by (rewrite firstn_length; lia). cbn [skipn app].
    rewrite firstn_app, firstn_all2 by lia.
    replace (Z.to_nat (l - f + 1) - length d)%nat with 0%nat by lia. cbn [firstn]. apply app_nil_r.
  Qed.
  Lemma put_slice_outside d i : Z.of_nat (length d) = l - f + 1 -> b_first b <= Byte_Index i ->
    Byte_Index i < f \/ l < Byte_Index i ->
    bit_at (put_slice b f d) i = bit_at b i.
  Proof.
    intros E B O. unfold bit_at. f_equal. unfold put_slice. cbn [b_first b_data]. unfold b_last in L. destruct O.
    - rewrite app_nth1 by (rewrite firstn_length; lia). apply nth_firstn_lt. lia.
    - rewrite app_nth2 by (rewrite firstn_length; lia). rewrite firstn_length.
      rewrite app_nth2 by lia. rewrite nth_skipn_add. f_equal. lia.
  Qed.
End Slice.

Section Field.
  Context (size : Z) (b : buffer) (f l : Z).
  Hypothesis (W : wf_buf b) (SZ : 1 <= size <= 64) (SPAN : l - f + 1 = size) (IN : in_buf b f l).

  Lemma field_bytes : Byte_Index f <= Byte_Index l /\ b_first b <= Byte_Index f /\ Byte_Index l <= b_last b.
  Proof.
    destruct IN as [A B]. unfold First_Bit_Index, Last_Bit_Index in *.
    pose proof (byte_index_bounds f). pose proof (byte_index_bounds l). lia.
  Qed.
  Lemma field_fits d : slice b (Byte_Index f) (Byte_Index l) = Ok d -> fits d (offset_of l) size.
  Proof.
    intros E. pose proof field_bytes as (A & B & C). pose proof (slice_length _ _ _ A B C d E) as LEN.
    destruct (offset_spec l) as [O1 O2]. pose proof (byte_index_bounds f). unfold fits. lia.
  Qed.

  (** reading a field gives the number whose bits are the bits of the buffer *)
  Lemma read_field_spec : exists v, read_field size b f l = Ok v /\ 0 <= v < 2 ^ size /\
    forall k, 0 <= k < size -> Z.testbit v k = bit_at b (l - k).
  Proof.
    pose proof field_bytes as (A & B & C). unfold read_field.
    pose proof (slice_ok _ _ _ A B C) as E. set (d := firstn _ _) in E. rewrite E. cbn [bind].
    pose proof (slice_wf _ _ _ A B C d (proj2 W) E) as WD. pose proof (field_fits d E) as FT.
    destruct (C01_extract_total d (offset_of l) size WD FT) as (v & X & R). exists v.
    split; [exact X|]. split; [exact R|]. intros k K.
    rewrite (C01_extract_bits d (offset_of l) size v WD FT X) by lia. destruct (Z.ltb_spec k size); [|lia].
    destruct (offset_spec l) as [O1 O2]. pose proof (byte_index_bounds f).
    rewrite (slice_bit _ _ _ A B C d) by (auto; lia). f_equal. lia.
  Qed.
  (** writing a field changes the bits of the field to those of the value and no
      others *)
  Lemma write_field_spec v : 0 <= v < 2 ^ size -> exists b', write_field size v b f l = Ok b' /\ wf_buf b' /\
    b_first b' = b_first b /\ length (b_data b') = length (b_data b) /\
    (forall k, 0 <= k < size -> bit_at b' (l - k) = Z.testbit v k) /\
    (forall i, First_Bit_Index (b_first b) <= i -> i < f \/ l < i -> bit_at b' i = bit_at b i).
  Proof.
    intros V. pose proof field_bytes as (A & B & C). unfold write_field.
    pose proof (slice_ok _ _ _ A B C) as E. set (d := firstn _ _) in E. rewrite E. cbn [bind].
    pose proof (slice_wf _ _ _ A B C d (proj2 W) E) as WD. pose proof (field_fits d E) as FT.
    pose proof (slice_length _ _ _ A B C d E) as LEN.
    destruct (C02_insert_extract v d (offset_of l) size WD FT V) as (d' & I & WD' & LEN' & _).
    rewrite I. cbn [bind]. exists (put_slice b (Byte_Index f) d').
    assert (LEN2 : Z.of_nat (length d') = Byte_Index l - Byte_Index f + 1) by lia.
    pose proof (put_slice_same_length b _ _ A B C d' LEN2) as SL.
    pose proof (put_slice_slice b _ _ A B C d' LEN2) as PS.
    assert (LL : b_last (put_slice b (Byte_Index f) d') = b_last b) by (unfold b_last; cbn [b_first put_slice]; now rewrite SL).
    assert (BF : b_first (put_slice b (Byte_Index f) d') = b_first b) by reflexivity.
    destruct (offset_spec l) as [O1 O2]. pose proof (byte_index_bounds f) as BB.
    split; [reflexivity|]. split; [split; [exact (proj1 W)|apply put_slice_wf; [exact (proj2 W)|exact WD']]|].
    split; [reflexivity|]. split; [exact SL|]. split.
    - intros k K. rewrite <- (C03_insert_bits v d (offset_of l) size d' WD FT V I k K).
      rewrite (slice_bit (put_slice b (Byte_Index f) d') (Byte_Index f) (Byte_Index l)); [f_equal; lia|lia|rewrite BF; lia|rewrite LL; lia|exact PS|lia|lia].
    - intros i I1 I2. pose proof (byte_index_bounds i) as BI. unfold First_Bit_Index in I1.
      destruct (Z.lt_ge_cases (Byte_Index i) (Byte_Index f)) as [X|X]; [|destruct (Z.lt_ge_cases (Byte_Index l) (Byte_Index i)) as [Y|Y]].
      + apply (put_slice_outside b _ _ A B C); [exact LEN2|lia|now left].
      + apply (put_slice_outside b _ _ A B C); [exact LEN2|lia|now right].
      + destruct (C03_insert_frame v d (offset_of l) size d' WD FT V I) as [_ FR].
        replace i with (8 * Byte_Index l - (8 * Byte_Index l - i)) by lia.
        rewrite <- (slice_bit b _ _ A B C d) by (auto; lia).
        rewrite <- (slice_bit (put_slice b (Byte_Index f) d') (Byte_Index f) (Byte_Index l)) with (d := d'); [|lia|rewrite BF; lia|rewrite LL; lia|exact PS|lia|lia].
        apply FR; lia.
  Qed.
End Field.

(** a value is determined by its bits *)
Lemma value_bits size v v' : 0 <= size -> 0 <= v < 2 ^ size -> 0 <= v' < 2 ^ size ->
  (forall k, 0 <= k < size -> Z.testbit v k = Z.testbit v' k) -> v = v'.
Proof.
  intros S0 V V' H. apply Z.bits_inj'. intros k K. destruct (Z.lt_ge_cases k size) as [L|G]; [auto|].
  rewrite <- (Z.mod_small v (2 ^ size)), <- (Z.mod_small v' (2 ^ size)) by assumption.
  rewrite !Z.mod_pow2_bits_high by lia. reflexivity.
Qed.
