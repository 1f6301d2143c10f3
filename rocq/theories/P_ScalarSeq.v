(** C04: scalar sequences. *)
From Coq Require Import String List ZArith Bool Lia.
From Verif Require Import Base AdaTypes AdaBuffer AdaBufferFacts ScalarSeq.
Import ListNotations.
Local Open Scope list_scope.
Local Open Scope Z_scope.

(** the numbers in the [size]-bit groups of the buffer behind bit [s] *)
Definition groups (b : buffer) (size s : Z) (vs : list Z) : Prop :=
  forall j v, nth_error vs j = Some v -> 0 <= v < 2 ^ size /\
    forall k, 0 <= k < size -> Z.testbit v k = bit_at b (s + Z.of_nat (S j) * size - k).
Fixpoint while_valid (valid : Z -> bool) (vs : list Z) : list Z :=
  match vs with
  | [] => []
  | v :: t => if valid v then v :: while_valid valid t else []
  end.

Lemma nth_error_ext {A} (l : list A) : forall m, (forall j, nth_error l j = nth_error m j) -> l = m.
Proof.
  induction l as [|x l IH]; intros [|y m] H; [reflexivity|discriminate (H 0%nat)|discriminate (H 0%nat)|].
  pose proof (H 0%nat) as E. injection E as ->. f_equal. apply IH. intros j. exact (H (S j)).
Qed.

Section ScalarSequence.
  Variable index_last : Z.
  Variable element : Type.
  Variable size : Z.
  Variable valid : Z -> bool.
  Variable to_actual : Z -> element.
  Variable to_base : element -> Z.
  Hypothesis size_range : 1 <= size <= 64.
  Hypothesis base_range : forall v, 0 <= to_base v < 2 ^ size.

  Notation pred := (context_predicate index_last).
  Notation next := (next index_last size valid).
  Notation append_element := (append_element index_last element size valid to_base).
  Notation append_all := (append_all index_last element size valid to_base).
  Notation read_all := (read_all index_last element size valid to_actual).
  Notation initialize_bounds := (initialize_bounds index_last).

  (** a context with a buffer *)
  Definition holds (c : context) (b : buffer) : Prop := pred c = true /\ buf c = Some b /\ wf_buf b.

  Lemma pred_iff c : pred c = true <->
    match buf c with Some b => b_first b = buffer_first c /\ b_last b = buffer_last c | None => True end /\
    buffer_first c <= Byte_Index (first c) /\ Byte_Index (last c) <= buffer_last c /\ first c mod 8 = 1 /\
    first c <= last c /\ last c <= bit_last index_last - 1 /\ first c - 1 <= sequence_last c /\ sequence_last c <= last c.
  Proof.
    unfold context_predicate. rewrite !andb_true_iff, !Z.leb_le, Z.eqb_eq.
    destruct (buf c); rewrite ?andb_true_iff, ?Z.eqb_eq; tauto.
  Qed.
  Lemma in_area c b : holds c b -> size <= last c - sequence_last c ->
    in_buf b (sequence_last c + 1) (sequence_last c + size) /\ 1 <= first c /\
    1 <= sequence_last c + 1 /\ sequence_last c + size <= bit_last index_last.
  Proof.
    intros (P & B & W1 & W2) S. apply pred_iff in P. rewrite B in P.
    destruct P as ((B1 & B2) & P1 & P2 & P3 & P4 & P5 & P6 & P7).
    pose proof (byte_index_bounds (first c)). pose proof (byte_index_bounds (last c)).
    unfold in_buf, First_Bit_Index, Last_Bit_Index.
    pose proof (Z.div_mod (first c) 8 ltac:(lia)).
    lia.
  Qed.

  Lemma next_step c b : holds c b -> has_element size c = true ->
    exists v c', next c = Ok c' /\ 0 <= v < 2 ^ size /\
      (forall k, 0 <= k < size -> Z.testbit v k = bit_at b (sequence_last c + size - k)) /\
      holds c' b /\ next_element c' = v /\ state_valid c' = valid v /\
      sequence_last c' = sequence_last c + size /\ first c' = first c /\ last c' = last c.
  Proof.
    intros H E. pose proof H as (P & B & W). unfold has_element in E. apply andb_true_iff in E as [E1 E2].
    apply Z.leb_le in E2. destruct (in_area c b H E2) as (IN & F1 & S1 & S2).
    assert (SP : sequence_last c + size - (sequence_last c + 1) + 1 = size) by lia.
    destruct (read_field_spec size b _ _ W size_range SP IN) as (v & RF & VR & VB).
    destruct (field_bytes size b _ _ size_range SP IN) as (A1 & A2 & A3).
    unfold ScalarSeq.next. unfold has_buffer, has_element. rewrite B, E1.
    destruct (Z.leb_spec size (last c - sequence_last c)); [|lia]. cbn [andb].
    unfold read_next_element. rewrite B. destruct (Z.leb_spec size (last c - sequence_last c)); [|lia].
    unfold bit_index. destruct (Z.leb_spec 1 (sequence_last c + size)); [|lia].
    destruct (Z.leb_spec (sequence_last c + size) (bit_last index_last)); [|lia].
    destruct (Z.leb_spec 1 (sequence_last c + 1)); [|lia].
    destruct (Z.leb_spec (sequence_last c + 1) (bit_last index_last)); [|lia]. cbn [andb bind].
    destruct (Z.leb_spec (b_first b) (Byte_Index (sequence_last c + 1))); [|lia].
    destruct (Z.leb_spec (Byte_Index (sequence_last c + size)) (b_last b)); [|lia].
    destruct (Z.leb_spec (Byte_Index (sequence_last c + 1)) (Byte_Index (sequence_last c + size))); [|lia].
    cbn [andb]. rewrite RF. cbn [bind]. unfold valid_element. cbn [state_valid next_element]. rewrite E1. cbn [andb].
    assert (KEY : forall st, exists c', checked index_last (mkContext (buffer_first c) (buffer_last c) (first c) (last c) (sequence_last c + size) (buf c) st v) = Ok c' /\
      holds c' b /\ next_element c' = v /\ state_valid c' = st /\ sequence_last c' = sequence_last c + size /\ first c' = first c /\ last c' = last c).
    { intros st. eexists. unfold checked.
      assert (PP : pred (mkContext (buffer_first c) (buffer_last c) (first c) (last c) (sequence_last c + size) (buf c) st v) = true).
      { apply pred_iff. cbn [buf buffer_first buffer_last first last sequence_last]. apply pred_iff in P. rewrite B in *. lia. }
      rewrite PP. split; [reflexivity|]. cbn. unfold holds. cbn. auto 8. }
    exists v. destruct (valid v) eqn:VV.
    - unfold bit_length. cbn [sequence_last]. destruct (Z.leb_spec 0 (sequence_last c + size)); [|lia].
      destruct (Z.leb_spec (sequence_last c + size) (bit_last index_last)); [|lia]. cbn [andb bind buffer_first buffer_last first last buf state_valid next_element].
      try rewrite B. rewrite B in KEY. destruct (KEY true) as (c' & K1 & K2). exists c'. split; [exact K1|]. auto.
    - unfold bit_length. cbn [sequence_last]. destruct (Z.leb_spec 0 (sequence_last c + size)); [|lia].
      destruct (Z.leb_spec (sequence_last c + size) (bit_last index_last)); [|lia]. cbn [andb bind buffer_first buffer_last first last buf state_valid next_element].
      try rewrite B. rewrite B in KEY. destruct (KEY false) as (c' & K1 & K2). exists c'. split; [exact K1|]. auto.
  Qed.

  Lemma append_step c b v : holds c b -> state_valid c = true -> valid (to_base v) = true ->
    size <= last c - sequence_last c ->
    exists b' c', append_element c v = Ok c' /\ holds c' b' /\ state_valid c' = true /\
      b_first b' = b_first b /\ length (b_data b') = length (b_data b) /\
      sequence_last c' = sequence_last c + size /\ first c' = first c /\ last c' = last c /\
      buffer_first c' = buffer_first c /\ buffer_last c' = buffer_last c /\
      (forall k, 0 <= k < size -> bit_at b' (sequence_last c + size - k) = Z.testbit (to_base v) k) /\
      (forall i, First_Bit_Index (b_first b) <= i -> i < sequence_last c + 1 \/ sequence_last c + size < i -> bit_at b' i = bit_at b i).
  Proof.
    intros H ST V E2. pose proof H as (P & B & W). destruct (in_area c b H E2) as (IN & F1 & S1 & S2).
    assert (SP : sequence_last c + size - (sequence_last c + 1) + 1 = size) by lia.
    destruct (write_field_spec size b _ _ W size_range SP IN (to_base v) (base_range v)) as (b' & WF & W' & BF & BL & BITS & FR).
    destruct (field_bytes size b _ _ size_range SP IN) as (A1 & A2 & A3).
    unfold ScalarSeq.append_element. rewrite B, ST, V. unfold available_space.
    destruct (Z.leb_spec size (last c - sequence_last c)); [|lia]. cbn [andb].
    unfold bit_index. destruct (Z.leb_spec 1 (sequence_last c + size)); [|lia].
    destruct (Z.leb_spec (sequence_last c + size) (bit_last index_last)); [|lia].
    destruct (Z.leb_spec 1 (sequence_last c + 1)); [|lia].
    destruct (Z.leb_spec (sequence_last c + 1) (bit_last index_last)); [|lia]. cbn [andb bind].
    destruct (Z.leb_spec (b_first b) (Byte_Index (sequence_last c + 1))); [|lia].
    destruct (Z.leb_spec (Byte_Index (sequence_last c + size)) (b_last b)); [|lia].
    destruct (Z.leb_spec (Byte_Index (sequence_last c + 1)) (Byte_Index (sequence_last c + size))); [|lia].
    cbn [andb]. rewrite WF. cbn [bind]. unfold bit_length. destruct (Z.leb_spec 0 (sequence_last c + size)); [|lia].
    destruct (Z.leb_spec (sequence_last c + size) (bit_last index_last)); [|lia]. cbn [andb bind].
    assert (PP : pred (mkContext (buffer_first c) (buffer_last c) (first c) (last c) (sequence_last c + size) (Some b') true (next_element c)) = true).
    { apply pred_iff. cbn [buf buffer_first buffer_last first last sequence_last]. apply pred_iff in P. rewrite B in P.
      assert (b_last b' = b_last b) by (unfold b_last; now rewrite BF, BL). lia. }
    unfold checked. rewrite PP. eexists b', _. split; [reflexivity|]. split; [split; [exact PP|split; [reflexivity|exact W']]|].
    cbn [state_valid sequence_last first last buffer_first buffer_last]. auto 12.
  Qed.

  (** Appending works whenever the elements are valid and there is space for them: no
      check fails, the bounds of the context and of the buffer stay the same, the
      elements are in the buffer in order, and no bit outside the area of the elements
      changes. *)
  Theorem C04_append c b vs : holds c b -> state_valid c = true ->
    (forall v, In v vs -> valid (to_base v) = true) ->
    sequence_last c + Z.of_nat (length vs) * size <= last c ->
    exists b' c', append_all c vs = Ok c' /\ holds c' b' /\ state_valid c' = true /\
      b_first b' = b_first b /\ length (b_data b') = length (b_data b) /\
      sequence_last c' = sequence_last c + Z.of_nat (length vs) * size /\ first c' = first c /\ last c' = last c /\
      buffer_first c' = buffer_first c /\ buffer_last c' = buffer_last c /\
      groups b' size (sequence_last c) (map to_base vs) /\
      (forall i, First_Bit_Index (b_first b) <= i -> i < sequence_last c + 1 \/ sequence_last c' < i -> bit_at b' i = bit_at b i).
  Proof.
    revert c b. induction vs as [|v vs IH]; intros c b H ST VS SP.
    - exists b, c. cbn [length map Z.of_nat]. rewrite Z.mul_0_l, Z.add_0_r.
      split; [reflexivity|]. split; [exact H|]. do 8 (split; [auto|]). split.
      + intros [|j] w E; discriminate.
      + auto.
    - cbn [length] in *. rewrite Nat2Z.inj_succ in *.
      destruct (append_step c b v H ST (VS v (or_introl eq_refl)) ltac:(nia))
        as (b1 & c1 & A & H1 & ST1 & BF1 & BL1 & SL1 & F1 & L1 & CF1 & CL1 & BITS & FR).
      destruct (IH c1 b1 H1 ST1 (fun w I => VS w (or_intror I)) ltac:(rewrite SL1, L1; lia))
        as (b2 & c2 & A2 & H2 & ST2 & BF2 & BL2 & SL2 & F2 & L2 & CF2 & CL2 & G2 & FR2).
      exists b2, c2. cbn [ScalarSeq.append_all]. rewrite A. cbn [bind]. split; [exact A2|]. split; [exact H2|].
      split; [exact ST2|]. split; [congruence|]. split; [congruence|]. split; [lia|]. do 4 (split; [congruence|]).
      pose proof (in_area c b H ltac:(nia)) as ((IN1 & _) & _ & SEQ & _).
      split.
      + intros [|j] w E; cbn in E.
        * injection E as <-. split; [apply base_range|]. intros k K. rewrite Z.mul_1_l.
          rewrite FR2; [now rewrite BITS|rewrite BF1; lia|left; lia].
        * destruct (G2 j w E) as [R BB]. split; [exact R|]. intros k K. rewrite (BB k K). f_equal. lia.
      + intros i I1 I2. rewrite FR2 by (rewrite ?BF1; lia). apply FR; [exact I1|]. nia.
  Qed.

  (** Reading yields exactly the elements up to the first invalid one, whatever the
      buffer contains. *)
  Theorem C04_read b : forall n c, holds c b -> state_valid c = true ->
    n = Z.to_nat ((last c - sequence_last c) / size) ->
    exists vs, length vs = n /\ groups b size (sequence_last c) vs /\
      forall fuel, (n <= fuel)%nat -> exists c', read_all fuel c = Ok (map to_actual (while_valid valid vs), c') /\ holds c' b.
  Proof.
    induction n as [|n IH]; intros c H ST N.
    - exists []. split; [reflexivity|]. split; [intros [|j] v E; discriminate|]. intros fuel _. exists c.
      split; [|exact H]. assert (HE : has_element size c = false).
      { unfold has_element. rewrite ST. apply Z.leb_gt. apply Z.nle_gt. intros L.
        assert (1 <= (last c - sequence_last c) / size) by (apply Z.div_le_lower_bound; lia). lia. }
      destruct fuel; cbn; rewrite HE; reflexivity.
    - assert (Q : 1 <= (last c - sequence_last c) / size) by lia.
      assert (E2 : size <= last c - sequence_last c).
      { pose proof (Z.mul_div_le (last c - sequence_last c) size ltac:(lia)). nia. }
      assert (HE : has_element size c = true) by (unfold has_element; rewrite ST; apply Z.leb_le; exact E2).
      destruct (next_step c b H HE) as (v & c1 & NX & VR & VB & H1 & NE & ST1 & SL & F1 & L1).
      destruct (valid v) eqn:VV.
      + destruct (IH c1 H1 ST1) as (vs & LEN & G & RD).
        { rewrite SL, L1. replace (last c - (sequence_last c + size)) with (last c - sequence_last c + (-1) * size) by lia.
          rewrite Z.div_add by lia. lia. }
        exists (v :: vs). split; [cbn; lia|]. split.
        * intros [|j] w E; cbn in E.
          -- injection E as <-. split; [exact VR|]. intros k K. rewrite Z.mul_1_l. auto.
          -- destruct (G j w E) as [R BB]. split; [exact R|]. intros k K. rewrite (BB k K), SL. f_equal. lia.
        * intros [|fuel] FU; [lia|]. destruct (RD fuel ltac:(lia)) as (c2 & RR & H2). exists c2. split; [|exact H2].
          cbn [ScalarSeq.read_all while_valid]. rewrite HE, NX. cbn [bind].
          assert (VE : valid_element valid c1 = true) by (unfold valid_element; now rewrite ST1, NE, VV).
          rewrite VE. unfold get_element. rewrite VE. cbn [bind]. rewrite RR. cbn [bind fst snd]. rewrite VV, NE. reflexivity.
      + (* the rest of the groups exists, too *)
        assert (REST : forall m s, 0 <= s -> First_Bit_Index (b_first b) <= s + 1 -> s + Z.of_nat m * size <= Last_Bit_Index (b_last b) ->
          exists vs, length vs = m /\ groups b size s vs).
        { induction m as [|m IHm]; intros s S0 S1 S2.
          - exists []. split; [reflexivity|intros [|j] w E; discriminate].
          - destruct (IHm (s + size)) as (vs & LV & GV); [lia|lia|lia|].
            destruct (read_field_spec size b (s + 1) (s + size) (proj2 (proj2 H)) size_range ltac:(lia)) as (w & _ & R & BB).
            { split; [exact S1|]. nia. }
            exists (w :: vs). split; [cbn; lia|]. intros [|j] w' E; cbn in E.
            + injection E as <-. split; [exact R|]. intros k K. rewrite Z.mul_1_l. auto.
            + destruct (GV j w' E) as [R' BB']. split; [exact R'|]. intros k K. rewrite (BB' k K). f_equal. lia. }
        pose proof H as (P & B & W). apply pred_iff in P. rewrite B in P.
        destruct P as ((B1 & B2) & P1 & P2 & P3 & P4 & P5 & P6 & P7).
        pose proof (in_area c b H E2) as ((IN1 & _) & F0 & S0 & _).
        destruct (REST n (sequence_last c + size)) as (vs & LV & GV); [lia|lia| |].
        { pose proof (byte_index_bounds (last c)). unfold Last_Bit_Index.
          pose proof (Z.mul_div_le (last c - sequence_last c) size ltac:(lia)). nia. }
        exists (v :: vs). split; [cbn; lia|]. split.
        * intros [|j] w E; cbn in E.
          -- injection E as <-. split; [exact VR|]. intros k K. rewrite Z.mul_1_l. auto.
          -- destruct (GV j w E) as [R BB]. split; [exact R|]. intros k K. rewrite (BB k K). f_equal. lia.
        * intros [|fuel] FU; [lia|]. exists c1. split; [|exact H1].
          cbn [ScalarSeq.read_all while_valid]. rewrite HE, NX. cbn [bind].
          assert (VE : valid_element valid c1 = false) by (unfold valid_element; now rewrite ST1).
          assert (HE1 : has_element size c1 = false) by (unfold has_element; now rewrite ST1).
          rewrite VE, VV. destruct fuel; cbn; rewrite HE1; reflexivity.
  Qed.

  Lemma groups_unique b s vs ws : length vs = length ws -> groups b size s vs -> groups b size s ws -> vs = ws.
  Proof.
    intros L G1 G2. apply nth_error_ext. intros j. destruct (nth_error vs j) as [v|] eqn:E1.
    - assert (LT : (j < length ws)%nat) by (rewrite <- L; apply nth_error_Some; congruence).
      destruct (nth_error ws j) as [w|] eqn:E2; [|apply nth_error_None in E2; lia]. f_equal.
      destruct (G1 j v E1) as [R1 B1], (G2 j w E2) as [R2 B2].
      apply (value_bits size); [lia|assumption|assumption|]. intros k K. now rewrite B1, B2.
    - apply nth_error_None in E1. symmetry. apply nth_error_None. lia.
  Qed.

  (** The round trip: a sequence written into a fresh context and read from the written
      area. *)
  Theorem C04_roundtrip b f l vs c0 :
    (forall v, to_actual (to_base v) = v) ->
    wf_buf b -> vs <> [] -> (forall v, In v vs -> valid (to_base v) = true) ->
    f - 1 + Z.of_nat (length vs) * size <= l ->
    initialize_bounds (Some b) (b_first b) (b_last b) f l = Ok (c0, None) ->
    exists c1 c2 b', append_all c0 vs = Ok c1 /\ take_buffer index_last c1 = Ok (c2, Some b') /\
      exists c3, initialize_bounds (Some b') (b_first b) (b_last b) f (sequence_last c1) = Ok (c3, None) /\
      forall fuel, (length vs <= fuel)%nat -> exists c4, read_all fuel c3 = Ok (vs, c4).
  Proof.
    intros INV W NE VS SP I. unfold ScalarSeq.initialize_bounds in I.
    destruct (_ && _) eqn:PRE in I; [|discriminate]. rewrite !andb_true_iff, !Z.leb_le, !Z.eqb_eq in PRE.
    unfold checked in I. destruct (pred _) eqn:P0 in I; [|discriminate]. cbn [bind] in I. apply Ok_inj in I. injection I as <-.
    set (c0 := mkContext _ _ _ _ _ _ _ _) in *. assert (H0 : holds c0 b) by (split; [exact P0|split; [reflexivity|exact W]]).
    destruct (C04_append c0 b vs H0 eq_refl VS SP) as (b' & c1 & A & H1 & ST & BF & BL & SL & F1 & L1 & CF & CL & G & FR).
    exists c1. change (sequence_last c0) with (f - 1) in *. change (first c0) with f in *. change (last c0) with l in *.
    assert (LL : b_last b' = b_last b) by (unfold b_last; now rewrite BF, BL).
    assert (LEN : (1 <= length vs)%nat) by (destruct vs; [congruence|cbn; lia]).
    set (c2 := mkContext (buffer_first c1) (buffer_last c1) (first c1) (last c1) (sequence_last c1) None (state_valid c1) (next_element c1)).
    pose proof H1 as (P1 & B1 & W1). exists c2, b'. split; [exact A|]. split.
    { unfold take_buffer, has_buffer. rewrite B1. unfold checked.
      assert (PP : pred c2 = true). { apply pred_iff. apply pred_iff in P1. rewrite B1 in P1. cbn. tauto. }
      fold c2. rewrite PP. reflexivity. }
    assert (P3 : pred (mkContext (b_first b) (b_last b) f (sequence_last c1) (f - 1) (Some b') true 0) = true).
    { apply pred_iff. cbn [buf buffer_first buffer_last first last sequence_last].
      pose proof (byte_index_mono (sequence_last c1) l ltac:(lia)). nia. }
    eexists. split.
    { unfold ScalarSeq.initialize_bounds. rewrite BF, LL, !Z.eqb_refl. cbn [andb].
      destruct (Z.leb_spec (b_first b) (Byte_Index f)); [|lia].
      destruct (Z.leb_spec (Byte_Index (sequence_last c1)) (b_last b)); [|pose proof (byte_index_mono (sequence_last c1) l ltac:(lia)); lia].
      destruct (Z.eqb_spec (f mod 8) 1); [|lia]. destruct (Z.leb_spec f (sequence_last c1)); [|nia].
      destruct (Z.leb_spec (sequence_last c1) (bit_last index_last - 1)); [|lia]. cbn [andb].
      unfold checked. rewrite P3. cbn [bind]. reflexivity. }
    intros fuel FU. set (c3 := mkContext _ _ _ _ _ _ _ _).
    destruct (C04_read b' (length vs) c3) as (ws & LW & GW & RD).
    { split; [exact P3|split; [reflexivity|exact W1]]. } { reflexivity. }
    { cbn [last sequence_last c3]. rewrite SL. replace (f - 1 + Z.of_nat (length vs) * size - (f - 1)) with (Z.of_nat (length vs) * size) by lia.
      rewrite Z.div_mul by lia. lia. }
    destruct (RD fuel FU) as (c4 & RR & _). exists c4. rewrite RR. do 2 f_equal.
    assert (E : ws = map to_base vs). { apply (groups_unique b' (f - 1)); [now rewrite map_length|exact GW|exact G]. }
    rewrite E. clear -VS INV. induction vs as [|v vs IH]; cbn; [reflexivity|].
    rewrite (VS v (or_introl eq_refl)). cbn. rewrite INV, IH; [reflexivity|]. intros w I. apply VS. now right.
  Qed.
End ScalarSequence.
Print Assumptions C04_append.
Print Assumptions C04_read.
Print Assumptions C04_roundtrip.

(** 5-bit elements, of which those below 24 are valid, in the bytes 8 .. 10 of a buffer
    of the bytes 7 .. 11. *)
Definition ex_valid (v : Z) : bool := v <? 24.
Definition ex_buf : buffer := mkBuffer 7 [255; 255; 255; 255; 255].
Definition ex_ctx : context := mkContext 7 11 57 80 56 (Some ex_buf) true 0.
Example C04_meets : initialize_bounds 1000 (Some ex_buf) 7 11 57 80 = Ok (ex_ctx, None) /\
  append_all 1000 Z 5 ex_valid (fun v => v) ex_ctx [1; 2; 3; 23]
    = Ok (mkContext 7 11 57 80 76 (Some (mkBuffer 7 [255; 8; 135; 127; 255])) true 0) /\
  (forall v, In v [1; 2; 3; 23] -> ex_valid v = true) /\ 57 - 1 + 4 * 5 <= 80 /\ wf_buf ex_buf.
Proof.
  split; [vm_compute; reflexivity|]. split; [vm_compute; reflexivity|]. split.
  - intros v [<-|[<-|[<-|[<-|[]]]]]; reflexivity.
  - split; [lia|]. split; [cbn; lia|]. intros x I. cbn in I. intuition lia.
Qed.
(** Reading stops at the first invalid element (here 30), behind which there are further
    valid elements. *)
Example C04_read_meets : exists c, read_all 1000 Z 5 ex_valid (fun v => v) 9
  (mkContext 7 11 57 81 56 (Some (mkBuffer 7 [255; 8; 188; 66; 0])) true 0) = Ok ([1; 2], c) /\ state_valid c = false.
Proof. eexists. vm_compute. split; reflexivity. Qed.

(** Valid_Element does not say that an element was read: it is true of a fresh context,
    and Get_Element then returns a value that is not in the buffer. *)
Theorem C04_unread_refuted : exists b c, initialize 1000 (Some b) = Ok (c, None) /\
  valid_element ex_valid c = true /\ get_element Z ex_valid (fun v => v) c = Ok 0 /\
  groups b 5 (sequence_last c) [31].
Proof.
  exists ex_buf. eexists. split; [vm_compute; reflexivity|]. split; [reflexivity|]. split; [reflexivity|].
  intros [|[|j]] v E; try discriminate E. injection E as <-. split; [lia|]. intros k K.
  assert (C : k = 0 \/ k = 1 \/ k = 2 \/ k = 3 \/ k = 4) by lia.
  destruct C as [-> | [-> | [-> | [-> | ->]]]]; vm_compute; reflexivity.
Qed.
Print Assumptions C04_unread_refuted.
