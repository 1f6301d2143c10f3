(** Properties C01, C02, C03, C40: reading and writing of scalar fields by the
    Ada run-time library. *)
From Coq Require Import String List ZArith Bool Lia.
From Verif Require Import Base AdaTypes AdaTypesFacts ExtractProofs InsertProofs.
Import ListNotations.
Local Open Scope Z_scope.

(** ** Specification: bits of a buffer, counted from the end

    Bit [k] of a buffer is bit [k mod 8] (0 = least significant) of the
    [k / 8]-th byte from the end.  This is network byte order: the last byte is
    the least significant one. *)
Definition buffer_bit (data : list Z) (k : Z) : bool :=
  (0 <=? k) &&
  Z.testbit (nth (length data - 1 - Z.to_nat (k / 8)) data 0) (k mod 8) &&
  (k / 8 <? Z.of_nat (length data)).

(** the contents of a buffer are bytes *)
Definition wf_buffer (data : list Z) : Prop := forall b, In b data -> 0 <= b < 256.

(** the field [off, off + size) lies in the buffer *)
Definition fits (data : list Z) (off size : Z) : Prop :=
  0 <= off < 8 /\ 1 <= size <= 64 /\ off + size <= 8 * Z.of_nat (length data).

Lemma wf_bytes data : wf_buffer data -> bytes data.
Proof. intros H. apply Forall_forall. exact H. Qed.

Lemma fits_m data off size : fits data off size ->
  (off + size - 1) / 8 < Z.of_nat (length data).
Proof. intros (H1 & H2 & H3). apply Z.div_lt_upper_bound; lia. Qed.

Lemma le_testbit l k : bytes l -> 0 <= k ->
  Z.testbit (le l) k = Z.testbit (nth (Z.to_nat (k / 8)) l 0) (k mod 8).
Proof.
  intros H; revert k. induction H as [|b l Hb H IH]; intros k Hk.
  - cbn [le]. rewrite Z.testbit_0_l. destruct (Z.to_nat (k / 8)); cbn; now rewrite Z.testbit_0_l.
  - cbn [le]. unfold is_byte in Hb.
    destruct (Z.lt_ge_cases k 8) as [L|G].
    + rewrite Z.div_small, Z.mod_small by lia. cbn [Z.to_nat nth].
      rewrite <- (Z.mod_pow2_bits_low (b + 256 * le l) 8 k) by lia.
      change (2 ^ 8) with 256. rewrite Z.mul_comm, Z.mod_add by lia.
      rewrite Z.mod_small by lia. reflexivity.
    + replace (k / 8) with ((k - 8) / 8 + 1).
      2:{ replace k with ((k - 8) + 1 * 8) at 2 by lia. rewrite Z.div_add by lia. lia. }
      replace (k mod 8) with ((k - 8) mod 8).
      2:{ replace k with ((k - 8) + 1 * 8) at 2 by lia. rewrite Z.mod_add by lia. lia. }
      assert (0 <= (k - 8) / 8) by (apply Z.div_pos; lia).
      replace (Z.to_nat ((k - 8) / 8 + 1)) with (S (Z.to_nat ((k - 8) / 8))) by lia.
      cbn [nth]. rewrite <- IH by lia.
      replace k with ((k - 8) + 8) at 1 by lia. rewrite <- Z.div_pow2_bits by lia.
      change (2 ^ 8) with 256. rewrite Z.mul_comm, Z.div_add by lia.
      rewrite Z.div_small by lia. reflexivity.
Qed.

Lemma buffer_bit_le data k : bytes data -> 0 <= k ->
  buffer_bit data k = Z.testbit (le (rev data)) k.
Proof.
  intros Hb Hk. unfold buffer_bit.
  assert (H0 : (0 <=? k) = true) by (apply Z.leb_le; lia). rewrite H0. cbn [andb].
  rewrite le_testbit by (auto using bytes_rev).
  assert (0 <= k / 8) by (apply Z.div_pos; lia).
  destruct (Z.ltb_spec (k / 8) (Z.of_nat (length data))).
  - rewrite andb_true_r. rewrite rev_nth by lia. do 2 f_equal. lia.
  - rewrite andb_false_r. rewrite nth_overflow by (rewrite rev_length; lia).
    now rewrite Z.testbit_0_l.
Qed.

(** ** C01 *)

Theorem C01_extract_total data off size :
  wf_buffer data -> fits data off size ->
  exists v, Extract size data off = Ok v /\ 0 <= v < 2 ^ size.
Proof.
  intros Hw Hf. pose proof (fits_m _ _ _ Hf). destruct Hf as (H1 & H2 & H3).
  unfold Extract. rewrite extract_value by (auto using wf_bytes).
  eexists; split; [reflexivity|]. apply Z.mod_pos_bound. apply pow2_pos. lia.
Qed.
Print Assumptions C01_extract_total.

Theorem C01_extract_bits data off size v :
  wf_buffer data -> fits data off size -> Extract size data off = Ok v ->
  forall k, 0 <= k ->
    Z.testbit v k = if k <? size then buffer_bit data (off + k) else false.
Proof.
  intros Hw Hf E k Hk. pose proof (fits_m _ _ _ Hf). destruct Hf as (H1 & H2 & H3).
  unfold Extract in E. rewrite extract_value in E by (auto using wf_bytes).
  injection E as <-. destruct (Z.ltb_spec k size).
  - rewrite Z.mod_pow2_bits_low by lia. rewrite Z.div_pow2_bits by lia.
    rewrite buffer_bit_le by (auto using wf_bytes; lia). f_equal; lia.
  - apply Z.mod_pow2_bits_high. lia.
Qed.
Print Assumptions C01_extract_bits.

(** the whole buffer read as a field is its big-endian number *)
Fixpoint big_endian (data : list Z) : Z :=
  match data with
  | [] => 0
  | b :: t => b * 256 ^ Z.of_nat (length t) + big_endian t
  end.

Lemma big_endian_le data : big_endian data = le (rev data).
Proof.
  induction data as [|b t IH]; [reflexivity|]. cbn [big_endian rev].
  rewrite le_app, rev_length. cbn [le]. rewrite IH. ring.
Qed.

Theorem C01_extract_whole data :
  wf_buffer data -> (1 <= length data <= 8)%nat ->
  Extract (8 * Z.of_nat (length data)) data 0 = Ok (big_endian data).
Proof.
  intros Hw Hl. pose proof (wf_bytes _ Hw) as Hb.
  assert (Hf : fits data 0 (8 * Z.of_nat (length data))) by (unfold fits; lia).
  pose proof (fits_m _ _ _ Hf). unfold Extract.
  rewrite extract_value by (auto; lia). rewrite big_endian_le. f_equal.
  rewrite Z.div_1_r. apply Z.mod_small.
  pose proof (le_bound (rev data) (bytes_rev _ Hb)) as HB.
  rewrite rev_length, pow256 in HB by lia. exact HB.
Qed.
Print Assumptions C01_extract_whole.

Example C01_nontrivial :
  let data := [18; 52; 86; 120; 154; 188; 222; 240; 17] in
  fits data 7 64 /\ Extract 64 data 7 = Ok 2623536934927580640.
Proof. vm_compute. repeat split; try reflexivity; discriminate. Qed.

(** ** C02 *)

Theorem C02_insert_extract val data off size :
  wf_buffer data -> fits data off size -> 0 <= val < 2 ^ size ->
  exists data', Insert size val data off = Ok data' /\
    wf_buffer data' /\ length data' = length data /\ Extract size data' off = Ok val.
Proof.
  intros Hw Hf Hv. pose proof (fits_m _ _ _ Hf) as Hm. destruct Hf as (H1 & H2 & H3).
  destruct (insert_value val data off size (wf_bytes _ Hw) H1 H2 Hv Hm) as (d & E & Hb & Hl & Hle).
  exists d. split; [exact E|]. split; [|split; [exact Hl|]].
  - intros b Hin. unfold bytes in Hb. rewrite Forall_forall in Hb. now apply Hb.
  - unfold Extract. rewrite extract_value by (auto; rewrite Hl; auto).
    f_equal. rewrite Hle. unfold overwrite.
    set (n := le (rev data)).
    pose proof (pow2_pos off ltac:(lia)). pose proof (pow2_pos size ltac:(lia)).
    rewrite pow2_split by lia.
    replace (n mod 2 ^ off + 2 ^ off * val + 2 ^ off * 2 ^ size * (n / (2 ^ off * 2 ^ size)))
      with (n mod 2 ^ off + (val + (n / (2 ^ off * 2 ^ size)) * 2 ^ size) * 2 ^ off) by ring.
    rewrite Z.div_add by lia. rewrite Z.div_small by (apply Z.mod_pos_bound; lia).
    rewrite Z.add_0_l, Z.mod_add by lia. apply Z.mod_small. lia.
Qed.
Print Assumptions C02_insert_extract.

Example C02_nontrivial :
  let data := [255; 255; 255] in
  fits data 3 13 /\ 0 <= 4242 < 2 ^ 13 /\
  Insert 13 4242 data 3 = Ok [255; 132; 151] /\ Extract 13 [255; 132; 151] 3 = Ok 4242.
Proof. vm_compute. repeat split; try reflexivity; discriminate. Qed.

(** ** C03 *)

Theorem C03_insert_frame val data off size data' :
  wf_buffer data -> fits data off size -> 0 <= val < 2 ^ size ->
  Insert size val data off = Ok data' ->
  length data' = length data /\
  forall k, 0 <= k -> k < off \/ off + size <= k -> buffer_bit data' k = buffer_bit data k.
Proof.
  intros Hw Hf Hv Ed. pose proof (fits_m _ _ _ Hf) as Hm. destruct Hf as (H1 & H2 & H3).
  destruct (insert_value val data off size (wf_bytes _ Hw) H1 H2 Hv Hm) as (d & E & Hb & Hl & Hle).
  unfold Insert in Ed. rewrite E in Ed. injection Ed as <-.
  split; [exact Hl|]. intros k Hk Hout.
  rewrite !buffer_bit_le by (auto using wf_bytes). rewrite Hle.
  unfold overwrite. set (n := le (rev data)).
  pose proof (pow2_pos off ltac:(lia)). pose proof (pow2_pos size ltac:(lia)).
  destruct Hout.
  - rewrite <- (Z.mod_pow2_bits_low _ off k) by lia.
    rewrite <- (Z.mod_pow2_bits_low n off k) by lia. f_equal.
    rewrite pow2_split by lia.
    replace (n mod 2 ^ off + 2 ^ off * val + 2 ^ off * 2 ^ size * (n / (2 ^ off * 2 ^ size)))
      with (n mod 2 ^ off + (val + (n / (2 ^ off * 2 ^ size)) * 2 ^ size) * 2 ^ off) by ring.
    rewrite Z.mod_add by lia. apply Z.mod_mod. lia.
  - replace k with ((k - (off + size)) + (off + size)) by lia.
    rewrite <- !Z.div_pow2_bits by lia. f_equal.
    pose proof (pow2_pos (off + size) ltac:(lia)).
    rewrite (Z.mul_comm (2 ^ (off + size))), Z.div_add by lia.
    rewrite Z.div_small; [lia|].
    pose proof (Z.mod_pos_bound n (2 ^ off) ltac:(lia)).
    rewrite pow2_split by lia. nia.
Qed.
Print Assumptions C03_insert_frame.

Theorem C03_insert_bits val data off size data' :
  wf_buffer data -> fits data off size -> 0 <= val < 2 ^ size ->
  Insert size val data off = Ok data' ->
  forall k, 0 <= k < size -> buffer_bit data' (off + k) = Z.testbit val k.
Proof.
  intros Hw Hf Hv Ed k Hk.
  destruct (C02_insert_extract val data off size Hw Hf Hv) as (d & E & Hwd & Hl & Ex).
  rewrite E in Ed. injection Ed as <-.
  assert (Hf' : fits d off size).
  { destruct Hf as (H1 & H2 & H3). unfold fits. rewrite Hl. auto. }
  pose proof (C01_extract_bits d off size val Hwd Hf' Ex k ltac:(lia)) as HB.
  destruct (Z.ltb_spec k size); [|lia]. now rewrite HB.
Qed.
Print Assumptions C03_insert_bits.

Example C03_nontrivial :
  let data := [1; 2; 3; 4] in
  Insert 10 1023 data 6 = Ok [1; 2; 255; 196] /\
  buffer_bit data 2 = true /\ buffer_bit [1; 2; 255; 196] 2 = true /\
  buffer_bit [1; 2; 255; 196] 6 = true.
Proof. vm_compute. auto. Qed.

(** ** C40: index conversions *)

Theorem C40_byte_index_inverse idx : 1 <= idx ->
  Byte_Index (First_Bit_Index idx) = idx /\ Byte_Index (Last_Bit_Index idx) = idx.
Proof.
  intros. unfold Byte_Index, First_Bit_Index, Last_Bit_Index.
  pose proof (Z.div_mod ((idx - 1) * 8 + 1 - 1) 8 ltac:(lia)).
  pose proof (Z.mod_pos_bound ((idx - 1) * 8 + 1 - 1) 8 ltac:(lia)).
  pose proof (Z.div_mod ((idx - 1) * 8 + 8 - 1) 8 ltac:(lia)).
  pose proof (Z.mod_pos_bound ((idx - 1) * 8 + 8 - 1) 8 ltac:(lia)). lia.
Qed.
Print Assumptions C40_byte_index_inverse.

Theorem C40_byte_of_bit bit idx : 1 <= bit -> 1 <= idx ->
  (Byte_Index bit = idx <-> First_Bit_Index idx <= bit <= Last_Bit_Index idx).
Proof.
  intros. unfold Byte_Index, First_Bit_Index, Last_Bit_Index.
  pose proof (Z.div_mod (bit - 1) 8 ltac:(lia)).
  pose proof (Z.mod_pos_bound (bit - 1) 8 ltac:(lia)). lia.
Qed.
Print Assumptions C40_byte_of_bit.

Example C40_nontrivial : Byte_Index 17 = 3 /\ First_Bit_Index 3 = 17 /\ Last_Bit_Index 3 = 24.
Proof. vm_compute. auto. Qed.
