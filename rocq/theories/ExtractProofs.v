(** U64_Extract computes the addressed bits and never fails a check. *)
From Coq Require Import String List ZArith Bool Lia Znumtheory.
From Verif Require Import Base AdaTypes AdaTypesFacts.
Import ListNotations.
Local Open Scope Z_scope.

Lemma mse_sizes o s : 0 <= o < 8 -> 1 <= s ->
  let m := (o + s - 1) / 8 in
  let e := (o + s + 8 - 1) mod 8 + 1 in
  8 * m + e = o + s /\ 1 <= e <= 8 /\ 0 <= m.
Proof.
  intros. subst m e.
  replace (o + s + 8 - 1) with ((o + s - 1) + 1 * 8) by lia.
  rewrite Z.mod_add by lia.
  pose proof (Z.div_mod (o + s - 1) 8 ltac:(lia)).
  pose proof (Z.mod_pos_bound (o + s - 1) 8 ltac:(lia)).
  assert (0 <= (o + s - 1) / 8) by (apply Z.div_pos; lia). lia.
Qed.

Lemma intermediate_ok c n o sh :
  0 <= c < 256 -> 0 <= n < 256 -> 0 <= o <= 7 -> 0 <= sh <= 56 ->
  U64_Extract_Intermediate c n (8 - o) o sh =
  Ok ((c / 2 ^ o + (n mod 2 ^ o) * 2 ^ (8 - o)) * 2 ^ sh).
Proof.
  intros. unfold U64_Extract_Intermediate, U64_Size.
  match goal with |- context [if ?b then _ else Err "U64_Extract_Intermediate precondition"] =>
    assert (H5: b = true) by (bsplit; lia) end.
  rewrite H5. clear H5.
  rewrite Right_Shift_ok by lia. cbn [bind].
  rewrite Pow2_ok by lia. cbn [bind].
  pose proof (pow2_pos o ltac:(lia)).
  pose proof (Z.mod_pos_bound n (2 ^ o) ltac:(lia)).
  assert (HN : (if 0 <? o then Left_Shift (n mod 2 ^ o) o (8 - o) else Ok (n mod 2 ^ o))
               = Ok ((n mod 2 ^ o) * 2 ^ (8 - o))).
  { destruct (Z.ltb_spec 0 o).
    - rewrite Left_Shift_ok by lia. reflexivity.
    - assert (o = 0) by lia. subst o. rewrite Z.pow_0_r, Z.mod_1_r. reflexivity. }
  rewrite HN. cbn [bind].
  pose proof (div_pow_lt c 8 o ltac:(lia) ltac:(lia)).
  pose proof (mul_pow_le (n mod 2 ^ o) o (8 - o) ltac:(lia) ltac:(lia) ltac:(lia)).
  replace (o + (8 - o)) with 8 in * by lia.
  assert (2 ^ 8 = 256) by reflexivity.
  assert (256 < 2 ^ 64) by reflexivity.
  rewrite u64_ok by lia. cbn [bind].
  rewrite Left_Shift_ok by lia. cbn [bind].
  set (x := c / 2 ^ o + n mod 2 ^ o * 2 ^ (8 - o)) in *.
  pose proof (mul_pow_le x 8 sh ltac:(lia) ltac:(lia) ltac:(lia)).
  pose proof (pow2_le (8 + sh) 64 ltac:(lia)).
  match goal with |- (if ?b then _ else _) = _ => assert (HB9: b = true) end.
  { destruct (8 + sh <? 64); apply Z.leb_le; lia. }
  rewrite HB9. reflexivity.
Qed.

Lemma remaining_ok d ec e o :
  0 <= d < 2 ^ e -> 1 <= e <= 8 -> 0 <= o <= 7 -> 1 <= e - o -> 0 <= ec <= 7 ->
  U64_Extract_Remaining d ec e o = Ok ((d / 2 ^ o) * 2 ^ (8 * ec)).
Proof.
  intros. unfold U64_Extract_Remaining, U64_Size.
  match goal with |- context [if ?b then _ else Err "U64_Extract_Remaining precondition"] =>
    assert (H5: b = true) by (bsplit; lia) end.
  rewrite H5. clear H5.
  rewrite Pow2_ok by lia. cbn [bind].
  rewrite Z.mod_small by lia.
  rewrite Right_Shift_ok by lia. cbn [bind].
  pose proof (div_pow_lt d e o ltac:(lia) ltac:(lia)).
  rewrite Left_Shift_ok by lia. cbn [bind].
  pose proof (mul_pow_le (d / 2 ^ o) (e - o) (8 * ec) ltac:(lia) ltac:(lia) ltac:(lia)).
  pose proof (pow2_le (e - o + 8 * ec) 64 ltac:(lia)).
  match goal with |- (if ?b then _ else _) = _ => assert (HB9: b = true) end.
  { cbv zeta. destruct (Z.ltb_spec (e - o + 8 * ec) 64).
    - bsplit. lia. apply pow2_le; lia.
    - apply Z.leb_le. lia. }
  rewrite HB9. reflexivity.
Qed.

Lemma ext_step low c n o k :
  0 <= o <= 7 -> 0 <= k -> 0 <= low < 2 ^ (8 * k) -> 0 <= c < 256 -> 0 <= n ->
  ((low + 2 ^ (8 * k) * c + 2 ^ (8 * (k + 1)) * n) / 2 ^ o) mod 2 ^ (8 * (k + 1))
  = ((low + 2 ^ (8 * k) * c) / 2 ^ o) mod 2 ^ (8 * k)
    + (c / 2 ^ o + (n mod 2 ^ o) * 2 ^ (8 - o)) * 2 ^ (8 * k).
Proof.
  intros Ho Hk Hl Hc Hn.
  set (A := low + 2 ^ (8 * k) * c).
  pose proof (pow2_pos o ltac:(lia)) as Po.
  pose proof (pow2_pos (8 * k) ltac:(lia)) as Pk.
  replace (8 * (k + 1)) with (o + (8 * k + 8 - o)) at 1 by lia.
  rewrite div_add_pow by lia.
  assert (HA : 0 <= A < 2 ^ (8 * k + 8)).
  { subst A. rewrite pow2_split by lia. change (2 ^ 8) with 256. nia. }
  pose proof (div_pow_lt A (8 * k + 8) o ltac:(lia) HA) as HD.
  (* the quotient part *)
  assert (E1 : A / 2 ^ o = (A / 2 ^ o) mod 2 ^ (8 * k) + (c / 2 ^ o) * 2 ^ (8 * k)).
  { rewrite (Z.div_mod (A / 2 ^ o) (2 ^ (8 * k))) at 1 by lia.
    rewrite Z.div_div by lia. rewrite Z.mul_comm with (n := 2 ^ o).
    rewrite <- Z.div_div by lia.
    assert (A / 2 ^ (8 * k) = c) as ->.
    { subst A. rewrite Z.mul_comm, Z.div_add by lia. rewrite Z.div_small by lia. lia. }
    ring. }
  set (q := n / 2 ^ o). set (r := n mod 2 ^ o).
  assert (En : n = 2 ^ o * q + r) by (apply Z.div_mod; lia).
  assert (Hr : 0 <= r < 2 ^ o) by (apply Z.mod_pos_bound; lia).
  replace (2 ^ (8 * k + 8 - o) * n)
    with (2 ^ (8 * k + 8 - o) * r + q * 2 ^ (8 * (k + 1))).
  2:{ rewrite En. replace (8 * (k + 1)) with ((8 * k + 8 - o) + o) by lia.
      rewrite (pow2_split (8 * k + 8 - o) o) by lia. ring. }
  rewrite Z.add_assoc, Z.mod_add by (pose proof (pow2_pos (8 * (k + 1)) ltac:(lia)); lia).
  rewrite Z.mod_small.
  - rewrite E1 at 1. replace (8 * k + 8 - o) with (8 * k + (8 - o)) by lia.
    rewrite (pow2_split (8 * k) (8 - o)) by lia. ring.
  - replace (2 ^ (8 * (k + 1))) with (2 ^ (8 * k + 8 - o) * 2 ^ o)
      by (rewrite <- pow2_split by lia; f_equal; lia).
    pose proof (pow2_pos (8 * k + 8 - o) ltac:(lia)). nia.
Qed.

(** masked digits *)
Definition digits (l : list Z) (m : nat) (e : Z) : list Z :=
  firstn m l ++ [nth m l 0 mod 2 ^ e].

Lemma digits_length l m e : (m < length l)%nat -> length (digits l m e) = S m.
Proof. intros. unfold digits. rewrite app_length, firstn_length_le by lia. cbn; lia. Qed.

Lemma digits_nth_lt l m e i : (m < length l)%nat -> (i < m)%nat ->
  nth i (digits l m e) 0 = nth i l 0.
Proof.
  intros. unfold digits. rewrite app_nth1 by (rewrite firstn_length_le; lia).
  rewrite <- (firstn_skipn m l) at 2. rewrite app_nth1 by (rewrite firstn_length_le; lia).
  reflexivity.
Qed.

Lemma digits_nth_eq l m e : (m < length l)%nat ->
  nth m (digits l m e) 0 = nth m l 0 mod 2 ^ e.
Proof.
  intros. unfold digits. rewrite app_nth2 by (rewrite firstn_length_le; lia).
  rewrite firstn_length_le by lia. rewrite Nat.sub_diag. reflexivity.
Qed.

Lemma digits_bytes l m e : bytes l -> 1 <= e <= 8 -> bytes (digits l m e).
Proof.
  intros. unfold digits, bytes. apply Forall_app. split.
  - now apply bytes_firstn.
  - constructor; [|constructor]. unfold is_byte.
    pose proof (Z.mod_pos_bound (nth m l 0) (2 ^ e) (pow2_pos e ltac:(lia))).
    pose proof (pow2_le e 8 ltac:(lia)). change (2 ^ 8) with 256 in *. lia.
Qed.

Lemma digits_le l m e : bytes l -> (m < length l)%nat -> 1 <= e <= 8 ->
  le (digits l m e) = le l mod 2 ^ (8 * Z.of_nat m + e).
Proof.
  intros Hb Hm He. unfold digits. rewrite le_app, firstn_length_le by lia.
  rewrite pow256 by lia. cbn [le]. rewrite Z.mul_0_r, Z.add_0_r.
  rewrite (le_split l (S m)) by lia. rewrite le_firstn_S by lia.
  set (A := le (firstn m l)). set (b := nth m l 0).
  assert (HA : 0 <= A < 2 ^ (8 * Z.of_nat m)).
  { pose proof (le_bound (firstn m l) (bytes_firstn _ _ Hb)) as HB.
    rewrite firstn_length_le, pow256 in HB by lia. exact HB. }
  pose proof (pow2_pos (8 * Z.of_nat m) ltac:(lia)) as Pm.
  pose proof (pow2_pos e ltac:(lia)) as Pe.
  rewrite Nat2Z.inj_succ.
  replace (8 * Z.succ (Z.of_nat m)) with ((8 * Z.of_nat m + e) + (8 - e)) by lia.
  rewrite (pow2_split _ (8 - e)) by lia.
  replace (2 ^ (8 * Z.of_nat m + e) * 2 ^ (8 - e) * le (skipn (S m) l))
    with ((2 ^ (8 - e) * le (skipn (S m) l)) * 2 ^ (8 * Z.of_nat m + e)) by ring.
  rewrite Z.mod_add by (pose proof (pow2_pos (8 * Z.of_nat m + e) ltac:(lia)); lia).
  rewrite pow2_split by lia.
  rewrite Z.rem_mul_r by lia.
  rewrite (Z.mul_comm (2 ^ (8 * Z.of_nat m)) b).
  rewrite Z.mod_add, Z.div_add by lia.
  rewrite (Z.mod_small A), (Z.div_small A) by lia. f_equal.
Qed.

Lemma D_ok data o s m i :
  bytes data -> 0 <= i <= m -> m < Z.of_nat (length data) ->
  D data o s m i
  = Ok (nth (Z.to_nat i) (digits (rev data) (Z.to_nat m) ((o + s + 8 - 1) mod 8 + 1)) 0).
Proof.
  intros Hb Hi Hm. unfold D. rewrite Read_ok by lia. cbn [bind]. f_equal.
  destruct (Z.ltb_spec i m).
  - rewrite digits_nth_lt by (rewrite ?rev_length; lia).
    apply Z.mod_small. change (2 ^ 8) with 256. apply bytes_nth. now apply bytes_rev.
  - assert (i = m) by lia. subst i.
    rewrite digits_nth_eq by (rewrite ?rev_length; lia). reflexivity.
Qed.

Section Loop.
  Variables (data : list Z) (o s : Z).
  Let m := (o + s - 1) / 8.
  Let e := (o + s + 8 - 1) mod 8 + 1.
  Let dl := digits (rev data) (Z.to_nat m) e.
  Hypothesis Hb : bytes data.
  Hypothesis Ho : 0 <= o < 8.
  Hypothesis Hs : 1 <= s <= 64.
  Hypothesis Hm : m < Z.of_nat (length data).

  Let Hsz : 8 * m + e = o + s /\ 1 <= e <= 8 /\ 0 <= m.
  Proof. apply mse_sizes; lia. Qed.

  Let Hdl : bytes dl.
  Proof. apply digits_bytes; [now apply bytes_rev | lia]. Qed.

  Let Hlen : length dl = S (Z.to_nat m).
  Proof. unfold dl. apply digits_length. rewrite rev_length. lia. Qed.

  Definition R (k : nat) : Z := (le (firstn (S k) dl) / 2 ^ o) mod 2 ^ (8 * Z.of_nat k).

  Lemma R_step k : (k < Z.to_nat m)%nat ->
    R (S k) = R k + (nth k dl 0 / 2 ^ o + (nth (S k) dl 0 mod 2 ^ o) * 2 ^ (8 - o))
                    * 2 ^ (8 * Z.of_nat k).
  Proof.
    intros. unfold R. rewrite (le_firstn_S dl (S k)) by lia.
    rewrite (le_firstn_S dl k) by lia.
    rewrite Nat2Z.inj_succ. unfold Z.succ.
    apply ext_step; try lia.
    - pose proof (le_bound (firstn k dl) (bytes_firstn _ _ Hdl)) as HB.
      rewrite firstn_length_le, pow256 in HB by lia. exact HB.
    - now apply bytes_nth.
    - apply bytes_nth; auto.
  Qed.

  Lemma R_bound k : 0 <= R k < 2 ^ (8 * Z.of_nat k).
  Proof. unfold R. apply Z.mod_pos_bound. apply pow2_pos. lia. Qed.

  Lemma loop_ok count i :
    (i + count <= Z.to_nat m)%nat ->
    Extract_Loop data o s m 0 count (Z.of_nat i) (R i) = Ok (R (i + count)).
  Proof.
    revert i. induction count as [|count IH]; intros i Hi.
    - cbn [Extract_Loop]. rewrite Nat.add_0_r. reflexivity.
    - cbn [Extract_Loop].
      rewrite !D_ok by (auto; lia). cbn [bind].
      replace (Z.to_nat (Z.of_nat i + 1)) with (S i) by lia.
      rewrite Nat2Z.id. fold e. fold dl.
      rewrite Z.sub_0_r.
      assert (m < 9).
      { unfold m. apply Z.div_lt_upper_bound; lia. }
      rewrite intermediate_ok by (try (apply bytes_nth; auto); lia).
      cbn [bind].
      rewrite <- R_step by lia.
      pose proof (R_bound (S i)) as HB.
      pose proof (pow2_le (8 * Z.of_nat (S i)) 64 ltac:(lia)) as HP.
      rewrite u64_ok by lia. cbn [bind].
      assert (H1: (Z.of_nat i <=? 7) = true) by (apply Z.leb_le; lia). rewrite H1.
      match goal with |- (if ?b then _ else _) = _ => assert (HB9: b = true) end.
      { destruct (negb _); [|reflexivity]. apply Z.ltb_lt.
        replace (8 + 8 * Z.of_nat i) with (8 * Z.of_nat (S i)) by lia. lia. }
      rewrite HB9.
      replace (Z.of_nat i + 1) with (Z.of_nat (S i)) by lia.
      rewrite IH by lia. do 2 f_equal. lia.
  Qed.

  Lemma extract_value :
    U64_Extract data o s = Ok ((le (rev data) / 2 ^ o) mod 2 ^ s).
  Proof.
    unfold U64_Extract.
    assert (m < 9).
    { unfold m. apply Z.div_lt_upper_bound; lia. }
    assert (HP : Extract_Pre data o s = true).
    { unfold Extract_Pre, U64_Size. fold m. rewrite (Z.mod_small o 8) by lia. bsplit; lia. }
    rewrite HP. rewrite (Z.mod_small o 8) by lia. rewrite (Z.div_small o 8) by lia.
    fold m. fold e. rewrite Z.sub_0_r.
    assert (R0 : R 0 = 0). { unfold R. cbn. apply Z.mod_1_r. }
    pose proof (loop_ok (Z.to_nat m) 0 ltac:(lia)) as HL.
    rewrite R0 in HL. cbn [Z.of_nat] in HL. rewrite HL. cbn [bind].
    rewrite Nat.add_0_l.
    (* the whole masked number *)
    assert (HF : firstn (S (Z.to_nat m)) dl = dl) by (apply firstn_all2; lia).
    assert (HD : le dl = le (rev data) mod 2 ^ (o + s)).
    { unfold dl. rewrite digits_le; [|now apply bytes_rev | rewrite rev_length; lia | lia].
      f_equal. f_equal. lia. }
    set (A := le dl) in *.
    assert (HAb : 0 <= A < 2 ^ (o + s)).
    { rewrite HD. apply Z.mod_pos_bound. apply pow2_pos. lia. }
    pose proof (pow2_pos o ltac:(lia)) as Po.
    pose proof (pow2_pos (8 * m) ltac:(lia)) as Pm.
    assert (Hdm : 0 <= nth (Z.to_nat m) dl 0 < 2 ^ e).
    { unfold dl. rewrite digits_nth_eq by (rewrite rev_length; lia).
      apply Z.mod_pos_bound. apply pow2_pos. lia. }
    assert (Hsum : R (Z.to_nat m) + (nth (Z.to_nat m) dl 0 / 2 ^ o) * 2 ^ (8 * m) = A / 2 ^ o).
    { unfold R. rewrite HF. fold A. rewrite Z2Nat.id by lia.
      rewrite (Z.div_mod (A / 2 ^ o) (2 ^ (8 * m))) at 2 by lia.
      rewrite Z.div_div by lia. rewrite (Z.mul_comm (2 ^ o)). rewrite <- Z.div_div by lia.
      assert (A / 2 ^ (8 * m) = nth (Z.to_nat m) dl 0) as ->.
      { unfold A. rewrite <- HF at 1. rewrite le_firstn_S by lia. rewrite Z2Nat.id by lia.
        rewrite Z.mul_comm, Z.div_add by lia.
        pose proof (le_bound (firstn (Z.to_nat m) dl) (bytes_firstn _ _ Hdl)) as HB.
        rewrite firstn_length_le, pow256, Z2Nat.id in HB by lia.
        rewrite Z.div_small by exact HB. lia. }
      ring. }
    pose proof (div_pow_lt A (o + s) o ltac:(lia) HAb) as HAo.
    replace (o + s - o) with s in HAo by lia.
    assert (Hfin : (le (rev data) / 2 ^ o) mod 2 ^ s = A / 2 ^ o).
    { rewrite HD. rewrite mod_div_pow by lia. f_equal. f_equal. lia. }
    rewrite Hfin.
    pose proof (R_bound (Z.to_nat m)) as HRb. rewrite Z2Nat.id in HRb by lia.
    assert (HR : (if o <? e
       then let element_count := m in
            (let* d := D data o s m m in
             let* v := U64_Extract_Remaining d element_count e o in
             u64 (R (Z.to_nat m) + v))%res
       else Ok (R (Z.to_nat m))) = Ok (A / 2 ^ o)).
    { pose proof (pow2_le s 64 ltac:(lia)).
      destruct (Z.ltb_spec o e).
      - cbv zeta. rewrite D_ok by (auto; lia). fold e. fold dl. cbn [bind].
        rewrite remaining_ok by lia. cbn [bind]. rewrite Hsum. apply u64_ok. lia.
      - f_equal. rewrite <- Hsum. rewrite Z.div_small; [lia|].
        pose proof (pow2_le e o ltac:(lia)). lia. }
    match goal with |- bind ?X _ = _ => replace X with (@Ok Z (A / 2 ^ o)) by (symmetry; exact HR) end.
    cbn [bind]. unfold U64_Size.
    destruct (Z.ltb_spec s 64).
    - rewrite Pow2_ok by lia. cbn [bind]. rewrite Z.mod_small by lia.
      assert (H2: (A / 2 ^ o <? 2 ^ s) = true) by (apply Z.ltb_lt; lia). rewrite H2. reflexivity.
    - cbn [bind]. reflexivity.
  Qed.
End Loop.
