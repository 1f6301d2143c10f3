(** Lemmas on bit lists, formats and the one's complement sum. *)
From Coq Require Import String List ZArith Bool Lia Permutation.
From Verif Require Import Base Bitstring Checksum.
Import ListNotations.
Local Open Scope Z_scope.

Definition b2z (b : bool) : Z := if b then 1 else 0.

(** specification: the w-bit big-endian representation of v *)
Fixpoint bits_of (w : nat) (v : Z) : bits :=
  match w with
  | O => []
  | S w' => bits_of w' (v / 2) ++ [Z.odd v]
  end.

(** specification: value of a big-endian bit list *)
Fixpoint value (l : bits) : Z :=
  match l with
  | [] => 0
  | b :: t => b2z b * 2 ^ Z.of_nat (length t) + value t
  end.

Lemma pow2_pos n : 0 < 2 ^ Z.of_nat n.
Proof. apply Z.pow_pos_nonneg; lia. Qed.
Lemma pow2_S n : 2 ^ Z.of_nat (S n) = 2 * 2 ^ Z.of_nat n.
Proof. rewrite Nat2Z.inj_succ, Z.pow_succ_r by lia. reflexivity. Qed.

Lemma int_of_acc l : forall a,
  fold_left (fun a (b : bool) => 2 * a + (if b then 1 else 0)) l a
  = a * 2 ^ Z.of_nat (length l) + value l.
Proof.
  induction l as [|b l IH]; intros a.
  - cbn. lia.
  - cbn [fold_left]. rewrite IH. cbn [length value]. rewrite pow2_S. unfold b2z.
    destruct b; lia.
Qed.

Lemma int_of_value l : int_of l = value l.
Proof. unfold int_of. rewrite int_of_acc. lia. Qed.

Lemma value_range l : 0 <= value l < 2 ^ Z.of_nat (length l).
Proof.
  induction l as [|b l IH]; [cbn; lia|]. cbn [length value]. rewrite pow2_S.
  unfold b2z. destruct b; lia.
Qed.

Lemma value_app a b : value (a ++ b) = value a * 2 ^ Z.of_nat (length b) + value b.
Proof.
  induction a as [|x a IH]; [cbn; lia|]. cbn [app value]. rewrite IH, app_length.
  rewrite Nat2Z.inj_add, Z.pow_add_r by lia. ring.
Qed.

Lemma value_repeat_false n l : value (repeat false n ++ l) = value l.
Proof. induction n; cbn [repeat app value]; auto. Qed.

Lemma value_inj a : forall b, length a = length b -> value a = value b -> a = b.
Proof.
  induction a as [|x a IH]; intros [|y b] HL HV; try discriminate; auto.
  cbn [length value] in *. injection HL as HL. rewrite HL in HV.
  pose proof (value_range a). pose proof (value_range b). rewrite HL in H.
  destruct x, y; unfold b2z in HV; try (exfalso; lia); f_equal; apply IH; auto; lia.
Qed.

Lemma bits_of_length w : forall v, length (bits_of w v) = w.
Proof. induction w; intros; cbn [bits_of]; auto. rewrite app_length, IHw. cbn. lia. Qed.

Lemma bits_of_value w : forall v, value (bits_of w v) = v mod 2 ^ Z.of_nat w.
Proof.
  induction w; intros v.
  - cbn [bits_of value]. rewrite Z.mod_1_r. reflexivity.
  - cbn [bits_of]. rewrite value_app, IHw. cbn [length value].
    change (2 ^ Z.of_nat 1) with 2. rewrite pow2_S.
    rewrite Z.add_0_r.
    assert (HP := pow2_pos w).
    rewrite (Z.rem_mul_r v 2 (2 ^ Z.of_nat w)) by lia.
    rewrite Zmod_odd. unfold b2z. cbn [Z.of_nat]. rewrite Z.pow_0_r. destruct (Z.odd v); lia.
Qed.

Lemma pos_digits_value p : value (pos_digits p) = Zpos p.
Proof.
  induction p; cbn [pos_digits]; rewrite ?value_app, ?IHp; cbn [value length];
    change (2 ^ Z.of_nat 1) with 2; unfold b2z; cbn [Z.of_nat]; rewrite ?Z.pow_0_r; lia.
Qed.

Lemma pos_digits_top p : exists t, pos_digits p = true :: t.
Proof.
  induction p; cbn [pos_digits]; try destruct IHp as [t ->]; cbn; eauto.
Qed.

Lemma pos_digits_bound p w : Zpos p < 2 ^ Z.of_nat w -> (length (pos_digits p) <= w)%nat.
Proof.
  intros H. pose proof (pos_digits_value p) as HV. destruct (pos_digits_top p) as [t Ht].
  rewrite Ht in *. cbn [value length] in *. unfold b2z in HV. pose proof (value_range t).
  destruct (Nat.le_gt_cases (S (length t)) w); auto. exfalso.
  assert (2 ^ Z.of_nat w <= 2 ^ Z.of_nat (length t)) by (apply Z.pow_le_mono_r; lia). lia.
Qed.

(** format with a width that suffices is the fixed-width representation *)
Lemma format_b_ok v w : (0 < w)%nat -> 0 <= v < 2 ^ Z.of_nat w -> format_b v w = Ok (bits_of w v).
Proof.
  intros Hw Hv. unfold format_b.
  assert (HL : forall d, (length d <= w)%nat -> value d = v ->
     repeat false (w - length d) ++ d = bits_of w v).
  { intros d Hd Ev. apply value_inj.
    - rewrite app_length, repeat_length, bits_of_length. lia.
    - rewrite value_repeat_false, bits_of_value, Z.mod_small by lia. auto. }
  destruct v as [|p|p]; [| |lia]; f_equal; apply HL.
  - cbn. lia.
  - reflexivity.
  - apply pos_digits_bound. lia.
  - apply pos_digits_value.
Qed.

(** a number too large for the width gives more digits *)
Lemma format_b_large v w : 2 ^ Z.of_nat w <= v -> exists b, format_b v w = Ok b /\ (w < length b)%nat.
Proof.
  intros Hv. pose proof (pow2_pos w). unfold format_b. destruct v as [|p|p]; try lia.
  eexists. split; [reflexivity|]. rewrite app_length.
  destruct (Nat.le_gt_cases (length (pos_digits p)) w); [|lia]. exfalso.
  pose proof (value_range (pos_digits p)) as HR. rewrite pos_digits_value in HR.
  assert (2 ^ Z.of_nat (length (pos_digits p)) <= 2 ^ Z.of_nat w) by (apply Z.pow_le_mono_r; lia). lia.
Qed.

Lemma value_bits_of l : bits_of (length l) (value l) = l.
Proof.
  apply value_inj; [apply bits_of_length|]. rewrite bits_of_value.
  apply Z.mod_small, value_range.
Qed.

Lemma bits_of_app w1 w2 v : 
  bits_of (w1 + w2) v = bits_of w1 (v / 2 ^ Z.of_nat w2) ++ bits_of w2 v.
Proof.
  pose proof (pow2_pos w1). pose proof (pow2_pos w2).
  apply value_inj.
  - rewrite app_length, !bits_of_length. reflexivity.
  - rewrite value_app, bits_of_length, !bits_of_value, Nat2Z.inj_add, Z.pow_add_r by lia.
    rewrite (Z.mul_comm (2 ^ Z.of_nat w1)). rewrite Z.rem_mul_r by lia. ring.
Qed.

(** ** bytes *)
Definition isbyte (b : Z) : Prop := 0 <= b < 256.

Lemma int_from_bytes_acc l : forall a,
  fold_left (fun a b => 256 * a + b) l a = a * 256 ^ Z.of_nat (length l) + int_from_bytes l.
Proof.
  unfold int_from_bytes. induction l as [|b l IH]; intros a.
  - cbn. lia.
  - cbn [fold_left]. rewrite IH, (IH (256 * 0 + b)). cbn [length].
    rewrite Nat2Z.inj_succ, Z.pow_succ_r by lia. ring.
Qed.

Lemma int_from_bytes_cons b l :
  int_from_bytes (b :: l) = b * 256 ^ Z.of_nat (length l) + int_from_bytes l.
Proof. unfold int_from_bytes at 1. cbn [fold_left]. rewrite int_from_bytes_acc. ring. Qed.

Lemma int_from_bytes_app a b :
  int_from_bytes (a ++ b) = int_from_bytes a * 256 ^ Z.of_nat (length b) + int_from_bytes b.
Proof.
  unfold int_from_bytes at 1. rewrite fold_left_app. rewrite int_from_bytes_acc. reflexivity.
Qed.

Lemma int_from_bytes_range l : Forall isbyte l -> 0 <= int_from_bytes l < 256 ^ Z.of_nat (length l).
Proof.
  induction 1 as [|b l Hb Hl IH]; [cbn; lia|]. rewrite int_from_bytes_cons.
  cbn [length]. rewrite Nat2Z.inj_succ, Z.pow_succ_r by lia. unfold isbyte in Hb. nia.
Qed.

(** specification: the bits of a byte string, most significant first *)
Definition bytes_bits (l : list Z) : bits := flat_map (bits_of 8) l.

Lemma bytes_bits_length l : length (bytes_bits l) = (8 * length l)%nat.
Proof. induction l; cbn [bytes_bits flat_map length]; auto.
  unfold bytes_bits in IHl. rewrite app_length, IHl, bits_of_length. lia. Qed.

Lemma pow256 n : 256 ^ Z.of_nat n = 2 ^ Z.of_nat (8 * n).
Proof. change 256 with (2 ^ 8). rewrite <- Z.pow_mul_r by lia. f_equal. lia. Qed.

Lemma bytes_bits_value l : Forall isbyte l -> value (bytes_bits l) = int_from_bytes l.
Proof.
  induction 1 as [|b l Hb Hl IH]; [reflexivity|].
  cbn [bytes_bits flat_map]. fold (bytes_bits l).
  rewrite value_app, IH, int_from_bytes_cons, bytes_bits_length, bits_of_value.
  rewrite Z.mod_small by (unfold isbyte in Hb; cbn; lia). now rewrite pow256.
Qed.

Lemma from_bytes_ok l : Forall isbyte l -> l <> [] -> from_bytes l = Ok (bytes_bits l).
Proof.
  intros Hl Hne. unfold from_bytes. rewrite Nat.mul_comm.
  assert (0 < length l)%nat by (destruct l; cbn; [congruence|lia]).
  rewrite format_b_ok.
  - f_equal. apply value_inj.
    + now rewrite bits_of_length, bytes_bits_length.
    + rewrite bits_of_value, bytes_bits_value by auto. apply Z.mod_small.
      rewrite <- pow256. now apply int_from_bytes_range.
  - lia.
  - rewrite <- pow256. now apply int_from_bytes_range.
Qed.

Lemma firstn_app_exact {A} (a b : list A) : firstn (length a) (a ++ b) = a.
Proof. rewrite firstn_app, Nat.sub_diag, firstn_all, firstn_O. apply app_nil_r. Qed.
Lemma skipn_app_exact {A} (a b : list A) : skipn (length a) (a ++ b) = b.
Proof. rewrite skipn_app, Nat.sub_diag, skipn_all. reflexivity. Qed.

Lemma to_bytes_aux_ok l : Forall isbyte l -> forall n, (length l <= n)%nat ->
  to_bytes_aux n (bytes_bits l) = l.
Proof.
  induction 1 as [|b l Hb Hl IH]; intros n Hn.
  - destruct n; reflexivity.
  - destruct n as [|n]; [cbn in Hn; lia|]. cbn [bytes_bits flat_map]. fold (bytes_bits l).
    pose proof (bits_of_length 8 b) as HL.
    assert (HF : firstn 8 (bits_of 8 b ++ bytes_bits l) = bits_of 8 b)
      by (rewrite <- HL at 1; apply firstn_app_exact).
    assert (HK : skipn 8 (bits_of 8 b ++ bytes_bits l) = bytes_bits l)
      by (rewrite <- HL at 1; apply skipn_app_exact).
    destruct (bits_of 8 b ++ bytes_bits l) as [|x t] eqn:E.
    { apply (f_equal (@length _)) in E. rewrite app_length, HL in E. discriminate. }
    cbn [to_bytes_aux]. rewrite HF, HK, IH by (cbn in Hn; lia). f_equal.
    rewrite int_of_value, bits_of_value. apply Z.mod_small. unfold isbyte in Hb. cbn. lia.
Qed.

Lemma to_bytes_ok l : Forall isbyte l -> to_bytes (bytes_bits l) = l.
Proof.
  intros Hl. apply to_bytes_aux_ok; auto. rewrite bytes_bits_length. lia.
Qed.

(** any bit list of a multiple of eight bits is the bits of some byte string *)
Lemma bytes_of_bits n : forall b, length b = (8 * n)%nat ->
  exists l, Forall isbyte l /\ b = bytes_bits l /\ length l = n.
Proof.
  induction n as [|n IH]; intros b Hb.
  - destruct b; [|discriminate]. exists []. auto.
  - destruct (IH (skipn 8 b)) as (l & Hl & El & Hn).
    { rewrite skipn_length, Hb. lia. }
    assert (H8 : length (firstn 8 b) = 8%nat) by (rewrite firstn_length, Hb; lia).
    exists (value (firstn 8 b) :: l). split; [|split].
    + constructor; auto. pose proof (value_range (firstn 8 b)) as HR. rewrite H8 in HR. exact HR.
    + cbn [bytes_bits flat_map]. fold (bytes_bits l). rewrite <- El.
      pose proof (value_bits_of (firstn 8 b)) as HV. rewrite H8 in HV. rewrite HV.
      symmetry. apply firstn_skipn.
    + cbn. now rewrite Hn.
Qed.

Lemma join_concat l : forall a, fold_left badd l a = a ++ concat l.
Proof.
  induction l as [|x l IH]; intros a; cbn [fold_left concat].
  - now rewrite app_nil_r.
  - rewrite IH. unfold badd. now rewrite <- app_assoc.
Qed.

(** ** one's complement sum *)

(** specification: the residue of the total modulo 65535, with 0 represented by
    65535 unless all words are 0 *)
Definition ones (t : Z) : Z := if t =? 0 then 0 else (t - 1) mod 65535 + 1.

Definition sum (l : list Z) : Z := fold_right Z.add 0 l.

Lemma ones_range t : 0 <= ones t <= 65535.
Proof. unfold ones. destruct (t =? 0); [lia|]. pose proof (Z.mod_pos_bound (t - 1) 65535). lia. Qed.

Lemma ones_small w : 0 <= w <= 65535 -> ones w = w.
Proof.
  intros H. unfold ones. destruct (Z.eqb_spec w 0); [lia|]. rewrite Z.mod_small by lia. lia.
Qed.

Lemma ones_mod t : 0 <= t -> ones t mod 65535 = t mod 65535.
Proof.
  intros Ht. unfold ones. destruct (Z.eqb_spec t 0); [subst; reflexivity|].
  rewrite Zplus_mod_idemp_l. f_equal. lia.
Qed.

Lemma add_ones t w : 0 <= t -> 0 <= w <= 65535 ->
  add_ones_complement (ones t) w = ones (t + w).
Proof.
  intros Ht Hw. pose proof (ones_range t) as HR. unfold add_ones_complement.
  change (Z.shiftl 1 16) with 65536.
  pose proof (Z.div_mod (t - 1) 65535 ltac:(lia)) as Hd.
  pose proof (Z.mod_pos_bound (t - 1) 65535 ltac:(lia)) as Hb.
  unfold ones in *. destruct (Z.eqb_spec t 0) as [->|Hne].
  - change (0 + w) with w. destruct (Z.ltb_spec w 65536); [|lia].
    destruct (Z.eqb_spec w 0); [lia|]. rewrite Z.mod_small by lia. lia.
  - destruct (Z.eqb_spec (t + w) 0); [lia|].
    set (q := (t - 1) / 65535) in *. set (r := (t - 1) mod 65535) in *.
    destruct (Z.ltb_spec (r + 1 + w) 65536) as [HL|HL].
    + destruct (Z.eq_dec (r + w) 65535) as [He|He]; [lia|].
      replace (t + w - 1) with (r + w + q * 65535) by lia.
      rewrite Z.mod_add by lia. rewrite Z.mod_small by lia. lia.
    + replace (t + w - 1) with (r + w - 65535 + (q + 1) * 65535) by lia.
      rewrite Z.mod_add by lia. rewrite (Z.mod_small (r + w - 65535)) by lia.
      replace (r + 1 + w + 1) with (r + w - 65534 + 1 * 65536) by lia.
      rewrite Z.mod_add by lia. rewrite Z.mod_small by lia. lia.
Qed.

Definition isword (w : Z) : Prop := 0 <= w <= 65535.

Lemma sum_nonneg l : Forall isword l -> 0 <= sum l.
Proof. induction 1 as [|w l Hw Hl IH]; cbn; [lia|]. unfold isword in Hw. unfold sum in IH. lia. Qed.

Lemma fold_ones l : Forall isword l -> forall t, 0 <= t ->
  fold_left add_ones_complement l (ones t) = ones (t + sum l).
Proof.
  induction 1 as [|w l Hw Hl IH]; intros t Ht; cbn [fold_left].
  - cbn. now rewrite Z.add_0_r.
  - rewrite add_ones by auto. unfold isword in Hw. rewrite IH by lia. f_equal. cbn. unfold sum. lia.
Qed.

Lemma xor_word x : 0 <= x <= 65535 -> Z.lxor x 65535 = 65535 - x.
Proof.
  intros Hx. change 65535 with (Z.ones 16) at 1.
  assert (E : Z.lxor x (Z.ones 16) = Z.ldiff (Z.ones 16) x).
  { apply Z.bits_inj'. intros n Hn. rewrite Z.lxor_spec, Z.ldiff_spec.
    destruct (Z.ltb_spec n 16).
    - rewrite Z.ones_spec_low by lia. destruct (Z.testbit x n); auto.
    - rewrite Z.ones_spec_high by lia. rewrite xorb_false_r. cbn.
      rewrite Z.bits_above_log2; auto; try lia.
      destruct (Z.eq_dec x 0) as [->|]; [cbn; lia|].
      apply Z.log2_lt_pow2; [lia|]. apply Z.lt_le_trans with (2 ^ 16); [cbn; lia|].
      apply Z.pow_le_mono_r; lia. }
  rewrite E. rewrite <- Z.sub_nocarry_ldiff; [reflexivity|].
  apply Z.bits_inj'. intros n Hn. rewrite Z.ldiff_spec, Z.bits_0.
  destruct (Z.ltb_spec n 16).
  - rewrite Z.ones_spec_low by lia. now rewrite andb_false_r.
  - rewrite Z.bits_above_log2; auto; try lia.
    destruct (Z.eq_dec x 0) as [->|]; [cbn; lia|].
    apply Z.log2_lt_pow2; [lia|]. apply Z.lt_le_trans with (2 ^ 16); [cbn; lia|].
    apply Z.pow_le_mono_r; lia.
Qed.

(** specification: the 16-bit big-endian words of a byte string *)
Fixpoint words (l : list Z) : list Z :=
  match l with
  | a :: b :: t => 256 * a + b :: words t
  | _ => []
  end.

Lemma list_pair_ind {A} (P : list A -> Prop) :
  P [] -> (forall a, P [a]) -> (forall a b l, P l -> P (a :: b :: l)) -> forall l, P l.
Proof.
  intros H0 H1 H2. fix IH 1. intros [|a [|b l]]; [exact H0|apply H1|apply H2, IH].
Qed.

Lemma chunks_words l : Nat.Even (length l) -> chunks l = words l.
Proof.
  induction l as [|a|a b l IH] using list_pair_ind; intros HE; auto.
  - destruct HE as [k Hk]. cbn [length] in Hk. lia.
  - cbn [chunks words]. f_equal. apply IH. destruct HE as [k Hk]. exists (k - 1)%nat. cbn [length] in Hk. lia.
Qed.

Lemma words_isword l : Forall isbyte l -> Forall isword (words l).
Proof.
  induction l as [|a|a b l IH] using list_pair_ind; intros HB; cbn [words]; auto.
  inversion HB as [|? ? Ha H1]; subst. inversion H1 as [|? ? Hb H2]; subst.
  constructor; auto. unfold isbyte, isword in *. lia.
Qed.

Lemma words_app a : Nat.Even (length a) -> forall b, words (a ++ b) = words a ++ words b.
Proof.
  induction a as [|x|x y l IH] using list_pair_ind; intros HE b; auto.
  - destruct HE as [k Hk]. cbn [length] in Hk. lia.
  - cbn [app words]. rewrite IH; auto. destruct HE as [k Hk]. exists (k - 1)%nat. cbn [length] in Hk. lia.
Qed.

Lemma checksum_value l : Forall isbyte l -> Nat.Even (length l) -> l <> [] ->
  internet_checksum l = Ok (65535 - ones (sum (words l))).
Proof.
  intros HB HE Hne. unfold internet_checksum. rewrite chunks_words by auto.
  pose proof (words_isword _ HB) as HW.
  destruct (words l) as [|w ws] eqn:E.
  - exfalso. destruct l as [|a [|b l]]; [congruence| |discriminate].
    destruct HE as [k Hk]. cbn [length] in Hk. lia.
  - inversion HW as [|? ? Hw HWs]; subst. f_equal.
    rewrite <- (ones_small w) at 1 by auto.
    rewrite fold_ones by (auto; unfold isword in Hw; lia).
    change (sum (w :: ws)) with (w + sum ws). apply xor_word, ones_range.
Qed.

Lemma sum_app a b : sum (a ++ b) = sum a + sum b.
Proof. unfold sum. induction a; cbn; lia. Qed.
Lemma sum_perm a b : Permutation a b -> sum a = sum b.
Proof. induction 1; cbn; unfold sum in *; cbn; lia. Qed.
