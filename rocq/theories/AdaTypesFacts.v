(** Lemmas about the model of the Ada run-time library. *)
From Coq Require Import String List ZArith Bool Lia Znumtheory.
From Verif Require Import Base AdaTypes.
Import ListNotations.
Local Open Scope Z_scope.

(** little-endian value of a list of bytes *)
Fixpoint le (l : list Z) : Z :=
  match l with [] => 0 | b :: t => b + 256 * le t end.

Definition is_byte (b : Z) : Prop := 0 <= b < 256.
Definition bytes (l : list Z) : Prop := Forall is_byte l.

Lemma pow2_pos n : 0 <= n -> 0 < 2 ^ n.
Proof. intros. apply Z.pow_pos_nonneg; lia. Qed.

Lemma pow2_split a b : 0 <= a -> 0 <= b -> 2 ^ (a + b) = 2 ^ a * 2 ^ b.
Proof. intros. apply Z.pow_add_r; lia. Qed.

Lemma pow2_le a b : a <= b -> 2 ^ a <= 2 ^ b.
Proof. intros. apply Z.pow_le_mono_r; lia. Qed.

Lemma pow2_lt a b : 0 <= b -> a < b -> 2 ^ a < 2 ^ b.
Proof. intros. apply Z.pow_lt_mono_r; lia. Qed.

Ltac bsplit :=
  rewrite ?andb_true_iff, ?Z.leb_le, ?Z.ltb_lt, ?Z.eqb_eq; repeat split.

Lemma Pow2_ok e : 0 <= e < 64 -> Pow2 e = Ok (2 ^ e).
Proof.
  intros. unfold Pow2, U64_Size.
  assert (H1: (0 <=? e) && (e <? 64) = true) by (bsplit; lia). rewrite H1.
  unfold u64, in_U64.
  assert (H2: (0 <=? 2 ^ e) && (2 ^ e <? 2 ^ 64) = true).
  { bsplit. pose proof (pow2_pos e); lia. apply pow2_lt; lia. }
  rewrite H2. reflexivity.
Qed.

Lemma u64_ok v : 0 <= v < 2 ^ 64 -> u64 v = Ok v.
Proof.
  intros. unfold u64, in_U64.
  assert (H2: (0 <=? v) && (v <? 2 ^ 64) = true) by (bsplit; lia).
  rewrite H2. reflexivity.
Qed.

Lemma Mod_Pow2_ok v e : 0 <= e < 64 -> Mod_Pow2 v e = Ok (v mod 2 ^ e).
Proof.
  intros. unfold Mod_Pow2, U64_Size.
  assert (H1: (0 <=? e) && (e <? 64) = true) by (bsplit; lia). rewrite H1.
  rewrite Pow2_ok by lia. reflexivity.
Qed.

Lemma div_pow_lt v a b : 0 <= b <= a -> 0 <= v < 2 ^ a -> 0 <= v / 2 ^ b < 2 ^ (a - b).
Proof.
  intros. pose proof (pow2_pos b ltac:(lia)). split.
  - apply Z.div_pos; lia.
  - apply Z.div_lt_upper_bound; [lia|].
    rewrite <- pow2_split by lia. replace (b + (a - b)) with a by lia. lia.
Qed.

Lemma Right_Shift_ok v vs len :
  1 <= vs <= 64 -> 0 <= len < 64 -> len <= vs -> vs - len <= 63 -> 0 <= v < 2 ^ vs ->
  Right_Shift v vs len = Ok (v / 2 ^ len).
Proof.
  intros. unfold Right_Shift, U64_Size.
  assert (H4: (1 <=? vs) && (0 <=? len) = true) by (bsplit; lia). rewrite H4.
  match goal with |- context [if ?b then _ else Err "Right_Shift precondition"] =>
    assert (H5: b = true) end.
  { bsplit; try lia. destruct (vs <? 64); [apply Z.ltb_lt; lia | reflexivity]. }
  rewrite H5. rewrite Pow2_ok by lia. cbn [bind].
  pose proof (div_pow_lt v vs len ltac:(lia) ltac:(lia)).
  assert (H7: (v / 2 ^ len <? 2 ^ (vs - len)) = true) by (bsplit; lia).
  rewrite H7. reflexivity.
Qed.

Lemma mul_pow_le v a b : 0 <= a -> 0 <= b -> 0 <= v < 2 ^ a ->
  0 <= v * 2 ^ b <= 2 ^ (a + b) - 2 ^ b.
Proof.
  intros. rewrite pow2_split by lia. pose proof (pow2_pos b ltac:(lia)). nia.
Qed.

Lemma Left_Shift_ok v vs len :
  1 <= vs -> 0 <= len < 64 -> vs + len <= 64 -> 0 <= v < 2 ^ vs ->
  Left_Shift v vs len = Ok (v * 2 ^ len).
Proof.
  intros. unfold Left_Shift, U64_Size.
  assert (H4: (1 <=? vs) && (0 <=? len) = true) by (bsplit; lia). rewrite H4.
  match goal with |- context [if ?b then _ else Err "Left_Shift precondition"] =>
    assert (H5: b = true) end.
  { bsplit; try lia. destruct (vs <? 64); [apply Z.ltb_lt; lia | reflexivity]. }
  rewrite H5.
  pose proof (mul_pow_le v vs len ltac:(lia) ltac:(lia) ltac:(lia)).
  pose proof (pow2_pos len ltac:(lia)).
  pose proof (pow2_le (vs + len) 64 ltac:(lia)).
  rewrite u64_ok by lia. cbn [bind].
  match goal with |- (if ?b then _ else _) = _ => assert (H9: b = true) end.
  { destruct (Z.ltb_spec (vs + len) 64).
    - bsplit. lia. apply pow2_le; lia.
    - apply Z.leb_le. lia. }
  rewrite H9. reflexivity.
Qed.

(** ** Reading and writing relative to the end = reversed list *)

Lemma Read_ok data i : 0 <= i < Z.of_nat (length data) ->
  Read data i = Ok (nth (Z.to_nat i) (rev data) 0).
Proof.
  intros. unfold Read.
  assert (H1: (0 <=? i) && (i <? Z.of_nat (length data)) = true) by (bsplit; lia).
  rewrite H1. rewrite rev_nth by lia.
  erewrite nth_error_nth' with (d := 0) by lia.
  do 2 f_equal. lia.
Qed.

Lemma set_nth_length {A} (l : list A) n x : length (set_nth l n x) = length l.
Proof. revert n; induction l; destruct n; simpl; auto. Qed.

Lemma set_nth_app1 {A} (l1 l2 : list A) n x : (n < length l1)%nat ->
  set_nth (l1 ++ l2) n x = set_nth l1 n x ++ l2.
Proof.
  revert n; induction l1; simpl; intros; [lia|].
  destruct n; [reflexivity|]. cbn. rewrite IHl1 by lia. reflexivity.
Qed.

Lemma set_nth_app2 {A} (l1 l2 : list A) n x : (length l1 <= n)%nat ->
  set_nth (l1 ++ l2) n x = l1 ++ set_nth l2 (n - length l1) x.
Proof.
  revert n; induction l1; simpl; intros.
  - now rewrite Nat.sub_0_r.
  - destruct n; [lia|]. cbn. rewrite IHl1 by lia. reflexivity.
Qed.

Lemma rev_set_nth {A} (l : list A) n x : (n < length l)%nat ->
  rev (set_nth l (length l - 1 - n) x) = set_nth (rev l) n x.
Proof.
  revert n. induction l as [|a l IH]; cbn [length]; intros n H; [lia|].
  replace (S (length l) - 1 - n)%nat with (length l - n)%nat by lia.
  destruct (Nat.eq_dec n (length l)) as [E|E].
  - subst. rewrite Nat.sub_diag. cbn [set_nth rev].
    rewrite set_nth_app2 by (rewrite rev_length; lia).
    rewrite rev_length, Nat.sub_diag. reflexivity.
  - destruct (length l - n)%nat as [|k] eqn:F; [lia|].
    cbn [set_nth rev].
    rewrite set_nth_app1 by (rewrite rev_length; lia).
    rewrite <- IH by lia. do 3 f_equal. lia.
Qed.

Lemma Write_ok data i b : 0 <= i < Z.of_nat (length data) -> 0 <= b < 256 ->
  exists data', Write data i b = Ok data' /\ length data' = length data /\
    rev data' = set_nth (rev data) (Z.to_nat i) b.
Proof.
  intros. unfold Write.
  assert (H1: (0 <=? i) && (i <? Z.of_nat (length data)) = true) by (bsplit; lia).
  assert (H2: (0 <=? b) && (b <? 2 ^ 8) = true) by (bsplit; lia).
  rewrite H1, H2. eexists. split; [reflexivity|]. split.
  - apply set_nth_length.
  - apply rev_set_nth. lia.
Qed.

(** ** Facts on little-endian values *)

Lemma le_app l1 l2 : le (l1 ++ l2) = le l1 + 256 ^ Z.of_nat (length l1) * le l2.
Proof.
  induction l1 as [|a l1 IH]; cbn [app le length].
  - change (256 ^ Z.of_nat 0) with 1. lia.
  - rewrite IH. rewrite Nat2Z.inj_succ, Z.pow_succ_r by lia. ring.
Qed.

Lemma le_bound l : bytes l -> 0 <= le l < 256 ^ Z.of_nat (length l).
Proof.
  induction 1 as [|b l Hb H IH]; cbn [le length].
  - change (256 ^ Z.of_nat 0) with 1. lia.
  - rewrite Nat2Z.inj_succ, Z.pow_succ_r by lia. unfold is_byte in Hb. lia.
Qed.

Lemma pow256 n : 0 <= n -> 256 ^ n = 2 ^ (8 * n).
Proof. intros. change 256 with (2 ^ 8). rewrite <- Z.pow_mul_r by lia. reflexivity. Qed.

Lemma firstn_S_nth {A} (l : list A) k d : (k < length l)%nat ->
  firstn (S k) l = firstn k l ++ [nth k l d].
Proof.
  revert k; induction l; cbn [length]; intros; [lia|].
  destruct k; [reflexivity|].
  change (a :: firstn (S k) l = a :: (firstn k l ++ [nth k l d])).
  rewrite IHl by lia. reflexivity.
Qed.

Lemma le_firstn_S l k : (k < length l)%nat ->
  le (firstn (S k) l) = le (firstn k l) + 2 ^ (8 * Z.of_nat k) * nth k l 0.
Proof.
  intros. rewrite (firstn_S_nth l k 0) by lia. rewrite le_app.
  rewrite firstn_length_le by lia. rewrite pow256 by lia. cbn [le]. ring.
Qed.

Lemma le_split l k : (k <= length l)%nat ->
  le l = le (firstn k l) + 2 ^ (8 * Z.of_nat k) * le (skipn k l).
Proof.
  intros. rewrite <- (firstn_skipn k l) at 1. rewrite le_app.
  rewrite firstn_length_le by lia. rewrite pow256 by lia. reflexivity.
Qed.

Lemma bytes_firstn l k : bytes l -> bytes (firstn k l).
Proof.
  unfold bytes. rewrite !Forall_forall. intros H x Hx. apply H.
  rewrite <- (firstn_skipn k l). apply in_or_app; auto.
Qed.
Lemma bytes_skipn l k : bytes l -> bytes (skipn k l).
Proof.
  unfold bytes. rewrite !Forall_forall. intros H x Hx. apply H.
  rewrite <- (firstn_skipn k l). apply in_or_app; auto.
Qed.
Lemma bytes_rev l : bytes l -> bytes (rev l).
Proof. unfold bytes. rewrite !Forall_forall. intros H x Hx. apply H. now apply in_rev. Qed.

Lemma bytes_nth l k : bytes l -> 0 <= nth k l 0 < 256.
Proof.
  intros H. destruct (Nat.lt_ge_cases k (length l)).
  - unfold bytes in H. rewrite Forall_forall in H. apply H. now apply nth_In.
  - rewrite nth_overflow by lia. lia.
Qed.

Lemma set_nth_split {A} (l : list A) k x : (k < length l)%nat ->
  set_nth l k x = firstn k l ++ x :: skipn (S k) l.
Proof.
  revert k; induction l; cbn [length]; intros; [lia|].
  destruct k; [reflexivity|]. cbn [set_nth firstn skipn app].
  rewrite IHl by lia. reflexivity.
Qed.

Lemma set_nth_bytes l k x : bytes l -> is_byte x -> bytes (set_nth l k x).
Proof.
  unfold bytes. intros H Hx. revert k; induction H; destruct k; cbn; constructor; auto.
Qed.

Lemma mod_mod_le v a b : 0 <= b <= a -> (v mod 2 ^ a) mod 2 ^ b = v mod 2 ^ b.
Proof.
  intros. replace (2 ^ a) with (2 ^ b * 2 ^ (a - b))
    by (rewrite <- pow2_split by lia; f_equal; lia).
  pose proof (pow2_pos b ltac:(lia)). pose proof (pow2_pos (a - b) ltac:(lia)).
  rewrite Z.rem_mul_r by lia.
  rewrite Z.mul_comm with (n := 2 ^ b), Z.mod_add by lia. apply Z.mod_mod. lia.
Qed.

Lemma mod_div_pow v a b : 0 <= b <= a ->
  (v mod 2 ^ a) / 2 ^ b = (v / 2 ^ b) mod 2 ^ (a - b).
Proof.
  intros. replace (2 ^ a) with (2 ^ b * 2 ^ (a - b))
    by (rewrite <- pow2_split by lia; f_equal; lia).
  pose proof (pow2_pos b ltac:(lia)). pose proof (pow2_pos (a - b) ltac:(lia)).
  rewrite Z.rem_mul_r by lia.
  rewrite Z.mul_comm with (n := 2 ^ b), Z.div_add by lia.
  rewrite Z.div_small by (apply Z.mod_pos_bound; lia). lia.
Qed.

(** dividing by 2^o a number whose upper part starts at 2^(o+d) *)
Lemma div_add_pow a b o d : 0 <= o -> 0 <= d ->
  (a + 2 ^ (o + d) * b) / 2 ^ o = a / 2 ^ o + 2 ^ d * b.
Proof.
  intros. rewrite pow2_split by lia. pose proof (pow2_pos o ltac:(lia)).
  replace (a + 2 ^ o * 2 ^ d * b) with (a + (2 ^ d * b) * 2 ^ o) by ring.
  rewrite Z.div_add by lia. reflexivity.
Qed.
