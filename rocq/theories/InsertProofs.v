(** U64_Insert overwrites exactly the addressed bits and never fails a check. *)
From Coq Require Import String List ZArith Bool Lia Znumtheory.
From Verif Require Import Base AdaTypes AdaTypesFacts ExtractProofs.
Import ListNotations.
Local Open Scope Z_scope.

(** what Insert is supposed to do with the number formed by the buffer *)
Definition overwrite (n v o s : Z) : Z :=
  n mod 2 ^ o + 2 ^ o * v + 2 ^ (o + s) * (n / 2 ^ (o + s)).

Lemma skipn_set_nth {A} (l : list A) k j x : (k < j)%nat -> skipn j (set_nth l k x) = skipn j l.
Proof.
  revert k j; induction l; intros; destruct j; try lia; [reflexivity|].
  destruct k; cbn; [reflexivity|]. apply IHl; lia.
Qed.
Lemma firstn_set_nth {A} (l : list A) k j x : (j <= k)%nat -> firstn j (set_nth l k x) = firstn j l.
Proof.
  revert k j; induction l; intros; destruct k; cbn; destruct j; try lia; try reflexivity.
  cbn. f_equal. apply IHl; lia.
Qed.
Lemma nth_set_nth_eq {A} (l : list A) k x d : (k < length l)%nat -> nth k (set_nth l k x) d = x.
Proof. revert k; induction l; intros; cbn in *; [lia|]. destruct k; cbn; auto. apply IHl; lia. Qed.
Lemma nth_set_nth_neq {A} (l : list A) k j x d : j <> k -> nth j (set_nth l k x) d = nth j l d.
Proof.
  revert k j; induction l; intros; destruct k, j; cbn; auto; try lia. Qed.

Lemma nth_skipn_hd {A} (l : list A) k d : nth k l d = nth 0 (skipn k l) d.
Proof. revert k; induction l; intros; destruct k; cbn; auto. Qed.

Lemma skipn_S {A} i (l : list A) : skipn (S i) l = skipn 1 (skipn i l).
Proof.
  revert l; induction i; intros; [reflexivity|]. destruct l; [reflexivity|].
  change (skipn (S i) l = skipn 1 (skipn i l)). apply IHi.
Qed.

Lemma mod_step v a : 0 <= a -> v mod 2 ^ (a + 8) = v mod 2 ^ a + 2 ^ a * ((v / 2 ^ a) mod 256).
Proof.
  intros. rewrite pow2_split by lia. change (2 ^ 8) with 256.
  apply Z.rem_mul_r. pose proof (pow2_pos a ltac:(lia)). lia. lia.
Qed.

(** state of the buffer when the bytes below [i] are written *)
Definition Inv (L0 : list Z) (v o : Z) (i : nat) (data : list Z) (rv : Z) : Prop :=
  bytes data /\ length data = length L0 /\
  le (firstn i (rev data)) = nth 0 L0 0 mod 2 ^ o + 2 ^ o * (v mod 2 ^ (8 * Z.of_nat i - o)) /\
  skipn i (rev data) = skipn i L0 /\
  rv = v / 2 ^ (8 * Z.of_nat i - o).

Lemma insert_loop_ok L0 v o s count : forall i data rv,
  0 <= o < 8 -> 1 <= s <= 64 -> 0 <= v < 2 ^ s ->
  (1 <= i)%nat -> 8 * (Z.of_nat (i + count)) < o + s ->
  (i + count < length L0)%nat ->
  Inv L0 v o i data rv ->
  exists data' rv',
    Insert_Loop s (8 - o) 0 count (Z.of_nat i) data rv = Ok (data', rv') /\
    Inv L0 v o (i + count) data' rv'.
Proof.
  induction count as [|count IH]; intros i data rv Ho Hs Hv Hi Hc Hlen Hinv.
  - exists data, rv. rewrite Nat.add_0_r. split; [reflexivity | exact Hinv].
  - cbn [Insert_Loop].
    destruct Hinv as (Hb & Hl & Hle & Hsk & Hrv).
    replace (s - (8 - o) - (Z.of_nat i - 0 - 1) * 8) with (s - (8 * Z.of_nat i - o)) by lia.
    set (a := 8 * Z.of_nat i - o) in *.
    assert (Ha : 0 <= a) by lia.
    pose proof (div_pow_lt v s a ltac:(lia) Hv) as Hrvb. rewrite <- Hrv in Hrvb.
    assert (H1 : (rv <? 2 ^ (s - a)) = true) by (apply Z.ltb_lt; lia). rewrite H1.
    pose proof (Z.mod_pos_bound rv (2 ^ 8) ltac:(reflexivity)) as Hmb.
    destruct (Write_ok data (Z.of_nat i) (rv mod 2 ^ 8) ltac:(lia) Hmb) as (d1 & E1 & El1 & Er1).
    rewrite E1. cbn [bind]. rewrite Nat2Z.id in Er1.
    rewrite Right_Shift_ok by lia. cbn [bind].
    replace (Z.of_nat i + 1) with (Z.of_nat (S i)) by lia.
    destruct (IH (S i) d1 (rv / 2 ^ 8)) as (d2 & rv2 & E2 & I2); try lia; try assumption.
    + unfold Inv. rewrite Er1. repeat split.
      * rewrite <- (rev_involutive d1). apply bytes_rev. rewrite Er1.
        apply set_nth_bytes; [now apply bytes_rev | exact Hmb].
      * lia.
      * rewrite le_firstn_S by (rewrite set_nth_length, rev_length; lia).
        rewrite firstn_set_nth by lia. rewrite Hle.
        rewrite nth_set_nth_eq by (rewrite rev_length; lia).
        replace (8 * Z.of_nat (S i) - o) with (a + 8) by lia.
        rewrite mod_step by lia. rewrite <- Hrv.
        replace (8 * Z.of_nat i) with (o + a) by lia. rewrite (pow2_split o a) by lia.
        change (2 ^ 8) with 256. ring.
      * rewrite skipn_set_nth by lia.
        rewrite (skipn_S i (rev data)), Hsk, <- skipn_S. reflexivity.
      * rewrite Hrv. rewrite Z.div_div by (try reflexivity; pose proof (pow2_pos a); lia).
        rewrite <- pow2_split by lia. f_equal. f_equal. lia.
    + exists d2, rv2. split; [exact E2|].
      replace (i + S count)%nat with (S i + count)%nat by lia. exact I2.
Qed.

Theorem insert_value val data off size :
  bytes data -> 0 <= off < 8 -> 1 <= size <= 64 -> 0 <= val < 2 ^ size ->
  (off + size - 1) / 8 < Z.of_nat (length data) ->
  exists data', U64_Insert val data off size = Ok data' /\
    bytes data' /\ length data' = length data /\
    le (rev data') = overwrite (le (rev data)) val off size.
Proof.
  intros Hb Ho Hs Hv Hm. unfold U64_Insert.
  assert (HP : Insert_Pre val data off size = true).
  { unfold Insert_Pre, U64_Size. bsplit; try lia.
    destruct (size <? 64); [apply Z.ltb_lt; lia | reflexivity]. }
  rewrite HP. rewrite (Z.mod_small off 8) by lia. rewrite (Z.div_small off 8) by lia.
  pose proof (mse_sizes off size Ho ltac:(lia)) as (Hsz & He & Hm0). cbv zeta in *.
  set (m := (off + size - 1) / 8) in *.
  set (e := (off + size + 8 - 1) mod 8 + 1) in *.
  assert (m < 9) by (apply Z.div_lt_upper_bound; lia).
  pose proof (bytes_rev _ Hb) as HbL.
  set (L := rev data) in *.
  assert (HlenL : length L = length data) by apply rev_length.
  assert (Hn : forall k, 0 <= nth k L 0 < 256) by (intro; now apply bytes_nth).
  pose proof (pow2_pos off ltac:(lia)) as Po.
  assert (P8 : 2 ^ 8 = 256) by reflexivity.
  assert (P64 : 256 < 2 ^ 64) by reflexivity.
  destruct (Z.eqb_spec 0 m) as [E|E].
  - (* single byte *)
    rewrite <- E. rewrite Read_ok by lia. cbn [bind]. fold L. change (Z.to_nat 0) with O.
    set (b := nth 0 L 0) in *. pose proof (Hn 0%nat) as Hb0. fold b in Hb0.
    rewrite Mod_Pow2_ok by lia. cbn [bind].
    rewrite Right_Shift_ok by lia. cbn [bind].
    rewrite Left_Shift_ok by lia. cbn [bind].
    pose proof (div_pow_lt b 8 (off + size) ltac:(lia) ltac:(lia)) as HU.
    assert (HUv : (if off + size <? 8
                   then Left_Shift (b / 2 ^ (off + size)) (8 - off - size) (off + size)
                   else Ok (b / 2 ^ (off + size)))
                  = Ok (b / 2 ^ (off + size) * 2 ^ (off + size))).
    { destruct (Z.ltb_spec (off + size) 8).
      - rewrite Left_Shift_ok; try lia. reflexivity.
        replace (8 - off - size) with (8 - (off + size)) by lia. lia.
      - assert (off + size = 8) as -> by lia. rewrite Z.div_small by lia. reflexivity. }
    rewrite HUv. cbn [bind].
    pose proof (Z.mod_pos_bound b (2 ^ off) ltac:(lia)) as Hlow.
    pose proof (mul_pow_le val size off ltac:(lia) ltac:(lia) Hv) as Hmid.
    pose proof (mul_pow_le (b / 2 ^ (off + size)) (8 - (off + size)) (off + size)
                 ltac:(lia) ltac:(lia) HU) as Hup.
    replace (8 - (off + size) + (off + size)) with 8 in Hup by lia.
    replace (size + off) with (off + size) in Hmid by lia.
    rewrite u64_ok by lia. cbn [bind]. rewrite u64_ok by lia. cbn [bind].
    set (x := b mod 2 ^ off + val * 2 ^ off + b / 2 ^ (off + size) * 2 ^ (off + size)) in *.
    assert (H1 : (x <? 2 ^ 8) = true) by (apply Z.ltb_lt; lia). rewrite H1.
    destruct (Write_ok data 0 x ltac:(lia) ltac:(lia)) as (d1 & E1 & El1 & Er1).
    exists d1. split; [exact E1|]. fold L in Er1. change (Z.to_nat 0) with O in Er1.
    repeat split; [|exact El1|].
    + rewrite <- (rev_involutive d1). apply bytes_rev. rewrite Er1.
      apply set_nth_bytes; [exact HbL | unfold is_byte; lia].
    + rewrite Er1. destruct L as [|b' t] eqn:EL; [cbn in HlenL; lia|].
      subst b. cbn [nth set_nth le] in *. unfold overwrite. subst x.
      set (T := le t).
      assert (Elow : (b' + 256 * T) mod 2 ^ off = b' mod 2 ^ off).
      { replace (256 * T) with ((2 ^ (8 - off) * T) * 2 ^ off).
        - apply Z.mod_add. lia.
        - rewrite <- P8. replace 8 with ((8 - off) + off) at 2 by lia.
          rewrite pow2_split by lia. ring. }
      rewrite Elow.
      assert (Eup : (b' + 256 * T) / 2 ^ (off + size)
                    = b' / 2 ^ (off + size) + 2 ^ (8 - (off + size)) * T).
      { rewrite <- P8. replace 8 with ((off + size) + (8 - (off + size))) at 1 by lia.
        apply div_add_pow; lia. }
      rewrite Eup.
      replace (256 * T) with (2 ^ (off + size) * 2 ^ (8 - (off + size)) * T).
      * ring.
      * rewrite <- pow2_split by lia.
        replace (off + size + (8 - (off + size))) with 8 by lia. reflexivity.
  - (* several bytes *)
    rewrite Read_ok by lia. cbn [bind]. fold L. change (Z.to_nat 0) with O.
    set (b := nth 0 L 0) in *. pose proof (Hn 0%nat) as Hb0. fold b in Hb0.
    rewrite !Mod_Pow2_ok by lia. cbn [bind].
    pose proof (Z.mod_pos_bound val (2 ^ (8 - off)) (pow2_pos (8 - off) ltac:(lia))) as Hvm.
    rewrite Left_Shift_ok by lia. cbn [bind].
    pose proof (Z.mod_pos_bound b (2 ^ off) ltac:(lia)) as Hlow.
    pose proof (mul_pow_le (val mod 2 ^ (8 - off)) (8 - off) off ltac:(lia) ltac:(lia) Hvm) as Hmid.
    replace (8 - off + off) with 8 in Hmid by lia.
    rewrite u64_ok by lia. cbn [bind].
    set (x := b mod 2 ^ off + val mod 2 ^ (8 - off) * 2 ^ off) in *.
    destruct (Write_ok data 0 x ltac:(lia) ltac:(lia)) as (d1 & E1 & El1 & Er1).
    rewrite E1. cbn [bind]. fold L in Er1. change (Z.to_nat 0) with O in Er1.
    rewrite Right_Shift_ok by lia. cbn [bind].
    assert (Hd1 : bytes d1).
    { rewrite <- (rev_involutive d1). apply bytes_rev. rewrite Er1.
      apply set_nth_bytes; [exact HbL | unfold is_byte; lia]. }
    assert (I1 : Inv L val off 1 d1 (val / 2 ^ (8 - off))).
    { unfold Inv. rewrite Er1. split; [exact Hd1|]. split; [lia|].
      replace (8 * Z.of_nat 1 - off) with (8 - off) by lia.
      destruct L as [|b' t] eqn:EL; [cbn in HlenL; lia|].
      cbn [set_nth firstn skipn nth le]. subst b. cbn [nth]. repeat split; try reflexivity.
      subst x. cbn [nth]. ring. }
    set (cnt := Z.to_nat (m - 1 - 0)).
    destruct (insert_loop_ok L val off size cnt 1 d1 (val / 2 ^ (8 - off))
                ltac:(lia) ltac:(lia) Hv ltac:(lia) ltac:(lia) ltac:(lia) I1)
      as (d2 & rv2 & E2 & I2).
    change (0 + 1) with (Z.of_nat 1). rewrite E2. cbn [bind].
    replace (1 + cnt)%nat with (Z.to_nat m) in I2 by lia.
    destruct I2 as (Hb2 & Hl2 & Hle2 & Hsk2 & Hrv2).
    rewrite Z2Nat.id in * by lia.
    pose proof (div_pow_lt val size (8 * m - off) ltac:(lia) Hv) as Hrvb.
    rewrite <- Hrv2 in Hrvb. replace (size - (8 * m - off)) with e in Hrvb by lia.
    rewrite Mod_Pow2_ok by lia. cbn [bind]. rewrite (Z.mod_small rv2) by lia.
    rewrite Read_ok by lia. cbn [bind].
    set (c := nth (Z.to_nat m) (rev d2) 0) in *.
    assert (Hc : 0 <= c < 256) by (apply bytes_nth; now apply bytes_rev).
    assert (HcL : c = nth (Z.to_nat m) L 0).
    { unfold c. rewrite nth_skipn_hd, Hsk2, <- nth_skipn_hd. reflexivity. }
    rewrite Right_Shift_ok by lia. cbn [bind].
    pose proof (div_pow_lt c 8 e ltac:(lia) ltac:(lia)) as HU.
    assert (HUv : (if 0 <? 8 - e then Left_Shift (c / 2 ^ e) (8 - e) e else Ok (c / 2 ^ e))
                  = Ok (c / 2 ^ e * 2 ^ e)).
    { destruct (Z.ltb_spec 0 (8 - e)).
      - apply Left_Shift_ok; lia.
      - assert (e = 8) as -> by lia. rewrite Z.div_small by lia. reflexivity. }
    rewrite HUv. cbn [bind].
    pose proof (mul_pow_le (c / 2 ^ e) (8 - e) e ltac:(lia) ltac:(lia) HU) as Hup.
    replace (8 - e + e) with 8 in Hup by lia.
    rewrite u64_ok by lia. cbn [bind].
    set (y := rv2 + c / 2 ^ e * 2 ^ e) in *.
    destruct (Write_ok d2 m y ltac:(lia) ltac:(lia)) as (d3 & E3 & El3 & Er3).
    exists d3. split; [exact E3|].
    assert (Hd3 : bytes d3).
    { rewrite <- (rev_involutive d3). apply bytes_rev. rewrite Er3.
      apply set_nth_bytes; [now apply bytes_rev | unfold is_byte; lia]. }
    repeat split; [exact Hd3 | lia |].
    set (mn := Z.to_nat m) in *.
    assert (Hmn : Z.of_nat mn = m) by lia.
    rewrite (le_split (rev d3) (S mn)) by (rewrite rev_length; lia).
    rewrite le_firstn_S by (rewrite rev_length; lia).
    rewrite Er3. rewrite firstn_set_nth by lia. rewrite skipn_set_nth by lia.
    rewrite nth_set_nth_eq by (rewrite rev_length; lia).
    rewrite Hle2.
    rewrite (skipn_S mn (rev d2)), Hsk2, <- skipn_S.
    unfold overwrite.
    rewrite (le_split L (S mn)) by lia. rewrite le_firstn_S by lia.
    set (T := le (skipn (S mn) L)). rewrite <- HcL.
    set (W := le (firstn mn L)).
    assert (HW : 0 <= W < 2 ^ (8 * m)).
    { pose proof (le_bound (firstn mn L) (bytes_firstn _ _ HbL)) as HB.
      rewrite firstn_length_le, pow256, Hmn in HB by lia. exact HB. }
    rewrite Nat2Z.inj_succ, Hmn. replace (8 * Z.succ m) with (8 * m + 8) by lia.
    pose proof (pow2_pos (8 * m) ltac:(lia)) as Pm.
    pose proof (pow2_pos e ltac:(lia)) as Pe.
    (* low part *)
    assert (Elow : (W + 2 ^ (8 * m) * c + 2 ^ (8 * m + 8) * T) mod 2 ^ off = b mod 2 ^ off).
    { assert (HW0 : W = b + 256 * le (skipn 1 (firstn mn L))).
      { unfold W, b. destruct L as [|b' t] eqn:EL; [cbn in HlenL; lia|].
        destruct mn as [|k]; [lia|]. reflexivity. }
      rewrite HW0. rewrite (pow2_split (8 * m) 8) by lia.
      replace (8 * m) with ((8 * (m - 1) + (8 - off)) + off) by lia.
      rewrite (pow2_split _ off) by lia.
      rewrite <- P8. replace 8 with ((8 - off) + off) at 1 by lia.
      rewrite (pow2_split (8 - off) off) by lia.
      match goal with |- ?X mod _ = _ =>
        replace X with (b + (2 ^ (8 - off) * le (skipn 1 (firstn mn L))
           + 2 ^ (8 * (m - 1) + (8 - off)) * c
           + 2 ^ (8 * (m - 1) + (8 - off)) * 2 ^ 8 * T) * 2 ^ off) by ring end.
      apply Z.mod_add. lia. }
    rewrite Elow.
    (* high part *)
    assert (Eup : (W + 2 ^ (8 * m) * c + 2 ^ (8 * m + 8) * T) / 2 ^ (off + size)
                  = c / 2 ^ e + 2 ^ (8 - e) * T).
    { replace (off + size) with (8 * m + e) by lia. rewrite (pow2_split (8 * m) e) by lia.
      rewrite <- Z.div_div by lia.
      replace (W + 2 ^ (8 * m) * c + 2 ^ (8 * m + 8) * T)
        with (W + (c + 256 * T) * 2 ^ (8 * m)) by (rewrite (pow2_split (8 * m) 8) by lia; ring).
      rewrite Z.div_add by lia. rewrite (Z.div_small W) by lia. rewrite Z.add_0_l.
      rewrite <- P8. replace 8 with (e + (8 - e)) at 1 by lia. apply div_add_pow; lia. }
    rewrite Eup.
    (* middle part *)
    assert (Emid : val = val mod 2 ^ (8 * m - off) + 2 ^ (8 * m - off) * rv2).
    { rewrite Hrv2. rewrite Z.add_comm. apply Z.div_mod.
      pose proof (pow2_pos (8 * m - off) ltac:(lia)). lia. }
    rewrite Emid at 2.
    replace (off + size) with (8 * m + e) by lia.
    rewrite (pow2_split (8 * m) e) by lia.
    rewrite (pow2_split (8 * m) 8) by lia.
    replace (2 ^ 8) with (2 ^ e * 2 ^ (8 - e)) by (rewrite <- pow2_split by lia; f_equal; lia).
    replace (2 ^ (8 * m)) with (2 ^ off * 2 ^ (8 * m - off))
      by (rewrite <- pow2_split by lia; f_equal; lia).
    subst y. fold b. ring.
Qed.
