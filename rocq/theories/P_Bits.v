(** Properties C06 and C07: bit strings and the internet checksum. *)
From Coq Require Import String List ZArith Bool Lia Permutation.
From Verif Require Import Base Bitstring Checksum BitFacts.
Import ListNotations.
Local Open Scope string_scope.
Local Open Scope list_scope.
Local Open Scope Z_scope.

(** *** C06 *)

Theorem C06_bytes_roundtrip : forall l, Forall isbyte l -> l <> [] ->
  exists b, from_bytes l = Ok b /\ length b = (8 * length l)%nat /\ to_bytes b = l.
Proof.
  intros l Hl Hne. exists (bytes_bits l). rewrite from_bytes_ok by auto.
  split; auto. split; [apply bytes_bits_length|now apply to_bytes_ok].
Qed.
Print Assumptions C06_bytes_roundtrip.

(** bit number i of the Bitstring is bit 7 - i mod 8 of byte i / 8 *)
Theorem C06_bit_positions : forall l b i, Forall isbyte l -> l <> [] -> from_bytes l = Ok b ->
  (i < 8 * length l)%nat ->
  nth i b false = Z.testbit (nth (i / 8) l 0) (7 - Z.of_nat (i mod 8)).
Proof.
  intros l b i Hl Hne E Hi. rewrite from_bytes_ok in E by auto. injection E as <-. clear Hne.
  revert i Hi. induction Hl as [|x l Hx Hl IH]; intros i Hi; [cbn in Hi; lia|].
  cbn [bytes_bits flat_map]. fold (bytes_bits l).
  destruct (Nat.lt_ge_cases i 8) as [H|H].
  - rewrite app_nth1 by (rewrite bits_of_length; auto).
    rewrite Nat.div_small, Nat.mod_small by lia. cbn [nth].
    do 8 (destruct i as [|i]; [cbn -[Z.testbit Z.odd Z.div]; rewrite ?Z.bit0_odd;
      repeat match goal with |- context [Z.odd (?a / 2)] => rewrite <- Z.div2_div end;
      rewrite ?Z.testbit_odd, ?Z.shiftr_div_pow2 by lia;
      rewrite ?Z.div2_div, ?Z.div_div by lia; f_equal; rewrite ?Z.div_1_r; reflexivity|]).
    lia.
  - rewrite app_nth2 by (rewrite bits_of_length; auto). rewrite bits_of_length.
    rewrite IH by (cbn in Hi; lia).
    replace (i / 8)%nat with (S ((i - 8) / 8)).
    + cbn [nth]. do 2 f_equal. f_equal. replace i with ((i - 8) + 1 * 8)%nat at 2 by lia.
      now rewrite Nat.mod_add by lia.
    + replace i with ((i - 8) + 1 * 8)%nat at 2 by lia. rewrite Nat.div_add by lia. lia.
Qed.
Print Assumptions C06_bit_positions.

Theorem C06_concatenation : forall a b, Forall isbyte a -> Forall isbyte b -> a <> [] -> b <> [] ->
  exists x y, from_bytes a = Ok x /\ from_bytes b = Ok y /\ from_bytes (a ++ b) = Ok (badd x y).
Proof.
  intros a b Ha Hb Na Nb. exists (bytes_bits a), (bytes_bits b).
  rewrite !from_bytes_ok; auto.
  - repeat split. unfold badd, bytes_bits. now rewrite flat_map_app.
  - now apply Forall_app.
  - destruct a; discriminate || congruence.
Qed.
Print Assumptions C06_concatenation.

Theorem C06_bits_roundtrip : forall b n, length b = (8 * n)%nat -> (0 < n)%nat ->
  Forall isbyte (to_bytes b) /\ length (to_bytes b) = n /\ from_bytes (to_bytes b) = Ok b.
Proof.
  intros b n Hb Hn. destruct (bytes_of_bits n b Hb) as (l & Hl & -> & HL).
  rewrite to_bytes_ok by auto. repeat split; auto. apply from_bytes_ok; auto.
  destruct l; [cbn in HL; lia|discriminate].
Qed.
Print Assumptions C06_bits_roundtrip.

(** join is concatenation *)
Theorem C06_join : forall l, join l = concat l.
Proof. intros. unfold join. now rewrite join_concat. Qed.
Print Assumptions C06_join.

Example C06_ex : Forall isbyte [1; 255; 16] /\ [1; 255; 16] <> [] /\
  from_bytes [129; 2] = Ok [true; false; false; false; false; false; false; true;
                            false; false; false; false; false; false; true; false] /\
  length (repeat true 16) = (8 * 2)%nat.
Proof.
  split; [repeat apply Forall_cons; try apply Forall_nil; unfold isbyte; lia|].
  split; [discriminate|]. split; reflexivity.
Qed.

(** The empty byte string becomes one zero bit. *)
Theorem C06_empty_refuted : exists b, from_bytes [] = Ok b /\ length b <> (8 * length (@nil Z))%nat.
Proof. eexists. split; [reflexivity|]. cbn. discriminate. Qed.
Print Assumptions C06_empty_refuted.

(** A Bitstring whose length is not a multiple of eight is not reproduced. *)
Theorem C06_odd_bits_refuted : exists b b', b <> [] /\ from_bytes (to_bytes b) = Ok b' /\ b' <> b.
Proof. exists [true]. eexists. repeat split; [discriminate|vm_compute; discriminate]. Qed.
Print Assumptions C06_odd_bits_refuted.

(** *** C07 *)

(** the 16-bit one's complement of the one's complement sum (RFC 1071), as an
    independent specification: congruence modulo 2^16 - 1, and 0 only for an
    all-one sum *)
Theorem C07_value : forall l, Forall isbyte l -> Nat.Even (length l) -> l <> [] ->
  exists c, internet_checksum l = Ok c /\ 0 <= c <= 65535 /\
    (c + sum (words l)) mod 65535 = 0 /\ (c = 65535 <-> sum (words l) = 0).
Proof.
  intros l Hl He Hne. rewrite checksum_value by auto. eexists. split; [reflexivity|].
  pose proof (ones_range (sum (words l))) as HR.
  pose proof (sum_nonneg _ (words_isword _ Hl)) as HS.
  split; [lia|]. split.
  - rewrite <- Z.add_mod_idemp_r by lia. rewrite <- (ones_mod (sum (words l))) by auto.
    rewrite Z.add_mod_idemp_r by lia.
    replace (65535 - ones (sum (words l)) + ones (sum (words l))) with 65535 by lia. reflexivity.
  - unfold ones in *. destruct (Z.eqb_spec (sum (words l)) 0); [intuition lia|].
    pose proof (Z.mod_pos_bound (sum (words l) - 1) 65535). intuition lia.
Qed.
Print Assumptions C07_value.

(** sender and receiver agree: with the checksum in its zeroed, 16-bit aligned slot
    the checksum of the whole is zero *)
Theorem C07_verifies : forall a b c, Forall isbyte a -> Forall isbyte b ->
  Nat.Even (length a) -> Nat.Even (length b) ->
  internet_checksum (a ++ [0; 0] ++ b) = Ok c ->
  internet_checksum (a ++ [c / 256; c mod 256] ++ b) = Ok 0.
Proof.
  intros a b c Ha Hb Ea Eb HC.
  assert (HE : forall x y, Nat.Even (length (a ++ [x; y] ++ b))).
  { intros x y. rewrite !app_length. destruct Ea as [p Hp], Eb as [q Hq].
    exists (p + 1 + q)%nat. cbn. lia. }
  assert (HN : forall x y, a ++ [x; y] ++ b <> []) by (intros; destruct a; discriminate).
  assert (HW : forall x y, sum (words (a ++ [x; y] ++ b)) = 256 * x + y + (sum (words a) + sum (words b))).
  { intros x y. rewrite words_app by auto. cbn [app words]. rewrite sum_app.
    change (sum (256 * x + y :: words b)) with (256 * x + y + sum (words b)). lia. }
  assert (HB : forall x y, isbyte x -> isbyte y -> Forall isbyte (a ++ [x; y] ++ b)).
  { intros x y Hx Hy. apply Forall_app. split; auto. cbn. auto. }
  rewrite checksum_value in HC; auto.
  2:{ apply HB; unfold isbyte; lia. }
  rewrite HW in HC.
  set (T := sum (words a) + sum (words b)) in *.
  replace (256 * 0 + 0 + T) with T in HC by lia. apply Ok_inj in HC.
  assert (HT : 0 <= T).
  { pose proof (sum_nonneg _ (words_isword _ Ha)). pose proof (sum_nonneg _ (words_isword _ Hb)).
    unfold T. lia. }
  pose proof (ones_range T) as HR.
  assert (Hc : 0 <= c <= 65535) by lia.
  assert (Hq : 0 <= c / 256 < 256).
  { split; [apply Z.div_pos; lia|apply Z.div_lt_upper_bound; lia]. }
  pose proof (Z.mod_pos_bound c 256 ltac:(lia)) as Hm.
  rewrite checksum_value; auto.
  f_equal. rewrite HW. fold T.
  pose proof (Z.div_mod c 256 ltac:(lia)) as Hd.
  replace (256 * (c / 256) + c mod 256 + T) with (c + T) by lia.
  assert (HM : (c + T) mod 65535 = 0).
  { rewrite <- Z.add_mod_idemp_r by lia. rewrite <- (ones_mod T) by auto.
    rewrite Z.add_mod_idemp_r by lia.
    replace (c + ones T) with 65535 by lia. reflexivity. }
  unfold ones in *. destruct (Z.eqb_spec T 0) as [E|E].
  - subst c. rewrite E. reflexivity.
  - destruct (Z.eqb_spec (c + T) 0); [lia|].
    apply Z.mod_divide in HM; [|lia]. destruct HM as [k Hk].
    replace (c + T - 1) with (65534 + (k - 1) * 65535) by lia.
    rewrite Z.mod_add by lia. reflexivity.
Qed.
Print Assumptions C07_verifies.

(** the order of the 16-bit words is irrelevant *)
Theorem C07_order : forall a b, Forall isbyte a -> Forall isbyte b ->
  Nat.Even (length a) -> Nat.Even (length b) -> a <> [] ->
  Permutation (words a) (words b) -> internet_checksum a = internet_checksum b.
Proof.
  intros a b Ha Hb Ea Eb Na HP.
  assert (b <> []).
  { intros ->. apply Permutation_sym, Permutation_nil in HP.
    destruct a as [|x [|y t]]; try discriminate; [congruence|].
    destruct Ea as [k Hk]. cbn in Hk. lia. }
  rewrite !checksum_value by auto. now rewrite (sum_perm _ _ HP).
Qed.
Print Assumptions C07_order.

(** every change of a single word is detected, except replacing 0 by 65535 or vice
    versa *)
Theorem C07_detects_word_change : forall a b x y x' y' c,
  Forall isbyte a -> Forall isbyte b -> isbyte x -> isbyte y -> isbyte x' -> isbyte y' ->
  Nat.Even (length a) -> Nat.Even (length b) ->
  (x, y) <> (x', y') ->
  ~ ((x, y) = (0, 0) /\ (x', y') = (255, 255)) -> ~ ((x, y) = (255, 255) /\ (x', y') = (0, 0)) ->
  internet_checksum (a ++ [x; y] ++ b) = Ok c ->
  internet_checksum (a ++ [x'; y'] ++ b) <> Ok c.
Proof.
  intros a b x y x' y' c Ha Hb Hx Hy Hx' Hy' Ea Eb Hne H1 H2 HC HC'.
  assert (HE : forall x y, Nat.Even (length (a ++ [x; y] ++ b))).
  { intros u v. rewrite !app_length. destruct Ea as [p Hp], Eb as [q Hq].
    exists (p + 1 + q)%nat. cbn. lia. }
  assert (HN : forall x y, a ++ [x; y] ++ b <> []) by (intros; destruct a; discriminate).
  assert (HW : forall x y, sum (words (a ++ [x; y] ++ b)) = 256 * x + y + (sum (words a) + sum (words b))).
  { intros u v. rewrite words_app by auto. cbn [app words]. rewrite sum_app.
    change (sum (256 * u + v :: words b)) with (256 * u + v + sum (words b)). lia. }
  assert (HB : forall x y, isbyte x -> isbyte y -> Forall isbyte (a ++ [x; y] ++ b)).
  { intros u v Hu Hv. apply Forall_app. split; auto. cbn. auto. }
  rewrite checksum_value in HC; auto. rewrite checksum_value in HC'; auto.
  rewrite HW in HC, HC'. apply Ok_inj in HC. apply Ok_inj in HC'.
  set (T := sum (words a) + sum (words b)) in *.
  assert (HT : 0 <= T).
  { pose proof (sum_nonneg _ (words_isword _ Ha)). pose proof (sum_nonneg _ (words_isword _ Hb)).
    unfold T. lia. }
  unfold isbyte in *.
  assert (EQ : ones (256 * x + y + T) mod 65535 = ones (256 * x' + y' + T) mod 65535) by (f_equal; lia).
  rewrite !ones_mod in EQ by lia.
  assert (HD : (256 * x + y - (256 * x' + y')) mod 65535 = 0).
  { replace (256 * x + y - (256 * x' + y')) with ((256 * x + y + T) - (256 * x' + y' + T)) by lia.
    rewrite Zminus_mod, EQ, Z.sub_diag. reflexivity. }
  apply Z.mod_divide in HD; [|lia]. destruct HD as [k Hk].
  assert (k = 0 \/ k = 1 \/ k = -1) as [Hk1 | [Hk1 | Hk1]] by lia; subst k.
  - apply Hne. f_equal; lia.
  - apply H2. split; f_equal; lia.
  - apply H1. split; f_equal; lia.
Qed.
Print Assumptions C07_detects_word_change.

Example C07_ex : internet_checksum [69; 0; 0; 115; 0; 0; 64; 0; 64; 17; 0; 0; 192; 168; 0; 1; 192; 168; 0; 199]
  = Ok (184 * 256 + 97).
Proof. reflexivity. Qed.
Example C07_ex_hyp : Nat.Even (length [69; 0; 0; 115]) /\ Permutation (words [1; 2; 3; 4]) (words [3; 4; 1; 2]).
Proof. split; [now exists 2%nat|]. apply perm_swap. Qed.

(** no bytes: IndexError *)
Theorem C07_empty_refuted : internet_checksum [] = Err "IndexError".
Proof. reflexivity. Qed.
Print Assumptions C07_empty_refuted.

(** RFC 1071 pads an odd number of bytes with a zero byte at the end; the code
    treats the last byte as the low byte of a word. *)
Theorem C07_odd_length_refuted : exists l c c',
  internet_checksum l = Ok c /\ internet_checksum (l ++ [0]) = Ok c' /\ c <> c'.
Proof. exists [1; 2; 3]. do 2 eexists. repeat split; vm_compute; discriminate. Qed.
Print Assumptions C07_odd_length_refuted.
