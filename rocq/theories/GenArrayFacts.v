(** Lemmas about array fields of generated messages (GenArray.v). *)
From Coq Require Import String List ZArith Bool Lia Arith.
From Verif Require Import Base Expr ExprEval MsgGraph MsgGraphFacts AdaTypes P_AdaTypes AdaBuffer AdaBufferFacts GenCode GenSpec GenFacts
  GenRun GenInv GenVerify GenMessage GenSet GenTotal GenArray.
From Verif Require ScalarSeq P_ScalarSeq.
Import ListNotations.
Local Open Scope string_scope.
Local Open Scope list_scope.
Local Open Scope Z_scope.
Local Notation length := List.length.

(** the bits [first] to [last] consist of valid elements *)
Definition elements (a : array) (b : buffer) (first last : Z) : Prop :=
  exists n, 0 <= n /\ last - first + 1 = n * a_size a /\
    forall j, 0 <= j < n -> exists v, 0 <= v < 2 ^ a_size a /\ a_valid a v = true /\
      forall k, 0 <= k < a_size a -> Z.testbit v k = bit_at b (first - 1 + (j + 1) * a_size a - k).

Lemma elements_nil a b f : elements a b f (f - 1).
Proof. exists 0. split; [lia|]. split; [lia|]. intros j J. lia. Qed.
Lemma elements_snoc a b f s v : elements a b f s -> 0 <= v < 2 ^ a_size a -> a_valid a v = true ->
  (forall k, 0 <= k < a_size a -> Z.testbit v k = bit_at b (s + a_size a - k)) -> elements a b f (s + a_size a).
Proof.
  intros (n & N0 & E & H) V1 V2 B. exists (n + 1). split; [lia|]. split; [lia|]. intros j J.
  destruct (Z.eq_dec j n) as [->|]; [|apply H; lia]. exists v. split; [exact V1|]. split; [exact V2|].
  intros k K. rewrite (B k K). f_equal. lia.
Qed.
Lemma elements_frame a b b' f l : 1 <= a_size a -> elements a b f l -> (forall i, f <= i <= l -> bit_at b' i = bit_at b i) -> elements a b' f l.
Proof.
  intros S (n & N0 & E & H) B. exists n. split; [exact N0|]. split; [exact E|]. intros j J.
  destruct (H j J) as (v & V1 & V2 & V3). exists v. split; [exact V1|]. split; [exact V2|]. intros k K. rewrite (V3 k K), B; [reflexivity|]. nia.
Qed.
(** replacing an element by a valid one *)
Lemma elements_write a b b' f l s v : 1 <= a_size a -> elements a b f l -> elements a b f s -> s + a_size a <= l ->
  0 <= v < 2 ^ a_size a -> a_valid a v = true ->
  (forall k, 0 <= k < a_size a -> bit_at b' (s + a_size a - k) = Z.testbit v k) ->
  (forall i, f <= i <= l -> i < s + 1 \/ s + a_size a < i -> bit_at b' i = bit_at b i) -> elements a b' f l.
Proof.
  intros S (n & N0 & E & H) (q & Q0 & EQ & _) SL V1 V2 B FR. exists n. split; [exact N0|]. split; [exact E|]. intros j J.
  destruct (Z.eq_dec j q) as [->|NE].
  - exists v. split; [exact V1|]. split; [exact V2|]. intros k K. rewrite <- (B k K). f_equal. lia.
  - destruct (H j J) as (w & W1 & W2 & W3). exists w. split; [exact W1|]. split; [exact W2|]. intros k K. rewrite (W3 k K), FR; [reflexivity|nia|].
    assert (j < q \/ q < j) as [Q|Q] by lia; [left; nia|right; nia].
Qed.

Lemma set_buffer_twice x o o' : set_buffer (set_buffer x o) o' = set_buffer x o'.
Proof. reflexivity. Qed.
Lemma set_buffer_same x b : x_buffer x = Some b -> set_buffer x (Some b) = x.
Proof. destruct x. cbn. intros ->. reflexivity. Qed.

(** ** The sequence of the scalars *)
Definition seq_pred_iff := P_ScalarSeq.pred_iff index_last Z 1 (fun _ => true) (fun v => v) ltac:(lia).
Notation seq_holds := (P_ScalarSeq.holds index_last).
(** Append_Element and Next with the numbers in the range of the type *)
Lemma to_base_range a v : 1 <= a_size a <= 64 -> 0 <= to_base a v < 2 ^ a_size a.
Proof. intros S. apply Z.mod_pos_bound. apply Z.pow_pos_nonneg; lia. Qed.
Definition append_step a (S : 1 <= a_size a <= 64) :=
  P_ScalarSeq.append_step index_last Z (a_size a) (a_valid a) (fun v => v) (to_base a) S (fun v => to_base_range a v S).
Definition next_step a (S : 1 <= a_size a <= 64) :=
  P_ScalarSeq.next_step index_last Z (a_size a) (a_valid a) (fun v => v) S.
Lemma seq_initialize b bf bl f l r : wf_buf b -> ScalarSeq.initialize_bounds index_last (Some b) bf bl f l = Ok r ->
  P_ScalarSeq.holds index_last (fst r) b /\ ScalarSeq.state_valid (fst r) = true /\ ScalarSeq.first (fst r) = f /\ ScalarSeq.last (fst r) = l /\
  ScalarSeq.sequence_last (fst r) = f - 1 /\ ScalarSeq.buffer_first (fst r) = bf /\ ScalarSeq.buffer_last (fst r) = bl.
Proof.
  intros WB E. unfold ScalarSeq.initialize_bounds in E. destruct (_ && _) in E; [|discriminate]. unfold ScalarSeq.checked in E.
  destruct (ScalarSeq.context_predicate _ _) eqn:P in E; [|discriminate]. cbn [bind] in E. apply Ok_inj in E. subst r. cbn [fst].
  split; [split; [exact P|split; [reflexivity|exact WB]]|]. cbn. auto 8.
Qed.
Lemma seq_initialize_ok b f l : wf_buf b -> b_first b <= Byte_Index f -> Byte_Index l <= b_last b -> f mod 8 = 1 -> f <= l -> l < Bit_Length_Last ->
  exists r, ScalarSeq.initialize_bounds index_last (Some b) (b_first b) (b_last b) f l = Ok r.
Proof.
  intros WB B1 B2 F8 FL LL. assert (LB : l <= ScalarSeq.bit_last index_last - 1) by (change (ScalarSeq.bit_last index_last) with Bit_Length_Last; lia).
  unfold ScalarSeq.initialize_bounds. rewrite !Z.eqb_refl.
  destruct (Z.leb_spec (b_first b) (Byte_Index f)); [|lia]. destruct (Z.leb_spec (Byte_Index l) (b_last b)); [|lia].
  destruct (Z.eqb_spec (f mod 8) 1); [|contradiction]. destruct (Z.leb_spec f l); [|lia].
  destruct (Z.leb_spec l (ScalarSeq.bit_last index_last - 1)); [|lia]. cbn [andb]. unfold ScalarSeq.checked.
  assert (P : ScalarSeq.context_predicate index_last (ScalarSeq.mkContext (b_first b) (b_last b) f l (f - 1) (Some b) true 0) = true).
  { apply seq_pred_iff. cbn [ScalarSeq.buf ScalarSeq.buffer_first ScalarSeq.buffer_last ScalarSeq.first ScalarSeq.last ScalarSeq.sequence_last].
    split; [auto|]. repeat (split; [assumption|]). lia. }
  rewrite P. cbn [bind]. eauto.
Qed.
Lemma seq_take c b : P_ScalarSeq.holds index_last c b -> exists c', ScalarSeq.take_buffer index_last c = Ok (c', Some b) /\ ScalarSeq.buf c' = None.
Proof.
  intros (P & B & WB). unfold ScalarSeq.take_buffer, ScalarSeq.has_buffer. rewrite B. unfold ScalarSeq.checked.
  set (c1 := ScalarSeq.mkContext _ _ _ _ _ _ _ _).
  assert (X : ScalarSeq.context_predicate index_last c1 = true).
  { apply seq_pred_iff. apply seq_pred_iff in P. rewrite B in P. unfold c1.
    cbn [ScalarSeq.buf ScalarSeq.buffer_first ScalarSeq.buffer_last ScalarSeq.first ScalarSeq.last ScalarSeq.sequence_last]. tauto. }
  rewrite X. cbn [bind]. exists c1. split; reflexivity.
Qed.

Section Facts.
  Context (s : list link) (fields : list field) (types : field -> ftype) (constants : name -> option Z).
  Local Notation run F L := (run s types constants F L).
  Local Notation place F L := (place s types constants F L).
  Local Notation holds F L := (holds constants F L).
  Local Notation composite := (composite fields types).
  Local Notation Inv := (Inv s fields types constants).
  Local Notation field_first := (field_first s fields types constants).
  Local Notation field_size := (field_size s fields types constants).
  Local Notation field_last := (field_last s fields types constants).
  Local Notation valid_next := (valid_next s fields types constants).
  Local Notation "x @ f" := (x_cursors x f) (at level 9, f at level 9).
  Context (W : wf s fields) (TS : forall f size vd, types f = FScalar size vd -> 1 <= size <= 64)
    (DET : deterministic s types constants) (SC : scoped s fields) (NO : no_overlay s).

  (** another buffer with the same bounds *)
  Lemma inv_buffer x b b' es : Inv (set_buffer x (Some b)) b es -> wf_buf b' -> b_first b' = b_first b ->
    length (b_data b') = length (b_data b) -> run (x_first x) (x_last x) b' es -> Inv (set_buffer x (Some b')) b' es.
  Proof.
    intros [B R C RE ML] WB BF BL R'. constructor; auto.
    apply (bounds_buffer (set_buffer x (Some b)) b b' B WB BF BL).
  Qed.
  (** the state of a composite field *)
  Lemma inv_valid x b es f : Inv x b es -> composite f = true -> structural_valid (x @ f) = true ->
    let k := x @ f in Inv (set_cursor x f (mkCursor S_Valid (c_pred k) (c_first k) (c_last k) (c_fld k) (c_value k))) b es.
  Proof.
    intros [B R C RE ML] CF V. cbn zeta. constructor; auto.
    - intros pre e post E. cbn [set_cursor x_cursors]. pose proof (C pre e post E) as M. unfold upd.
      destruct (String.eqb_spec (e_fld e) f) as [Q|N]; [|exact M]. rewrite Q in M. unfold matches in *. cbn [c_pred c_first c_last c_fld c_value].
      split; [reflexivity|]. split; [reflexivity|]. tauto.
    - intros g IG J. pose proof (RE g IG J) as [V' Q]. unfold rest_ok. cbn [set_cursor x_cursors x_first x_last].
      unfold upd. destruct (String.eqb_spec g f) as [->|N]; [congruence|]. auto.
  Qed.
  (** an entry is where the code computes it to be *)
  Lemma entry_computed x b es pre e post : Inv x b es -> es = pre ++ e :: post ->
    (forall a, field_first x (e_fld e) = Ok a -> a = e_first e) /\
    (forall z, field_size x (e_fld e) = Ok z -> z = e_last e - e_first e + 1).
  Proof.
    intros I ES. pose proof (i_run _ _ _ _ _ _ _ I) as R. pose proof R as R'. rewrite ES in R'.
    pose proof (run_prefix _ _ _ _ _ _ _ _ R') as R0. pose proof (run_step _ _ _ _ _ _ _ _ _ R') as (PC & _).
    pose proof (i_cur _ _ _ _ _ _ _ I pre e post ES) as (_ & _ & PL & _).
    assert (IF : In (e_fld e) fields) by (eapply run_in_fields; [exact W|exact R|rewrite ES; apply in_or_app; right; now left]).
    pose proof PC as (l & k & IL & S & T & NF & H & A & K & K0 & B & _). rewrite (NO l IL) in A. split.
    - intros a EA.
      destruct (first_of s fields types constants W DET x b pre (e_fld e) R0 PL
                  (GenSet.sees_pre s fields types constants W SC x b es I pre (e :: post) ES)
                  (fun N _ => GenSet.last_pre s fields types constants x b es I pre (e :: post) ES N) IF l IL S T H a EA) as [A' _].
      rewrite (NO l IL) in A'. congruence.
    - intros z EZ.
      destruct (size_of s fields types constants W DET x b pre (e_fld e) R0 PL
                  (GenSet.sees_pre s fields types constants W SC x b es I pre (e :: post) ES) IF l IL S T H z EZ) as [Z' _].
      assert (z = k); [|lia]. destruct (types (e_fld e)); [congruence|].
      destruct K as (e1 & Q1 & Q2), Z' as (e2 & Q3 & Q4). congruence.
  Qed.

  (** entries do not overlap *)
  Lemma disjoint F L b es e e' : run F L b es -> In e es -> In e' es -> e_fld e <> e_fld e' -> e_last e < e_first e' \/ e_last e' < e_first e.
  Proof.
    intros R. revert e e'. induction R as [|es e0 R IH ST]; intros e e' I I' N; [destruct I|].
    pose proof (run_bits s types constants NO F L b es R) as [_ RB].
    destruct ST as ((l & z & IL & _ & _ & _ & _ & A & _ & Z0 & B & _) & _). rewrite (NO l IL) in A.
    apply in_app_or in I as [I|[<-|[]]]; apply in_app_or in I' as [I'|[<-|[]]]; [auto| | |congruence].
    - left. destruct (RB e I). lia.
    - right. destruct (RB e' I'). lia.
  Qed.

  (** Switch_To_<Field> of a field that is not there yet *)
  Lemma enter_composite x b es f st a l x' : Inv x b es -> In f fields -> types f = FComposite -> st = S_Valid \/ st = S_Structural_Valid ->
    valid_next x f = Ok true -> sufficient_space s fields types constants x f = Ok true ->
    (exists z, field_size x f = Ok z /\ field_cond s fields types constants x f 0 z = Ok true) ->
    field_first x f = Ok a -> field_last x f = Ok l ->
    enter_field s fields types constants st (reset_dependent_fields fields x f) f a l 0 = Ok x' ->
    set_result s fields types constants x b es f 0 x' b.
  Proof.
    intros I IF T ST VN SP (z' & EZ' & FC) EA1 EL E.
    destruct (cut s fields types constants W x b es f I IF VN) as (pre & rest & ES & PL & RT).
    destruct (placed s fields types constants W DET SC NO x b es f I IF VN SP pre rest ES PL) as (a0 & z & EA & EZ & PC & AE).
    assert (z' = z) by congruence. subst z'. assert (QA : a0 = a) by congruence. rewrite QA in EA, PC, AE. clear QA a0.
    pose proof (last_x s fields types constants x f a z EA EZ l EL). subst l.
    destruct (reset_bounds s fields types constants W x b es f I IF) as (RF & RL & RB).
    set (e := mkEntry f a (a + z - 1) 0).
    assert (CF : composite f = true) by (unfold GenCode.composite; rewrite T; now apply memf_iff).
    assert (RR : run (x_first x) (x_last x) b (pre ++ [e])).
    { constructor; [exact (GenSet.R0 s fields types constants x b es I pre rest ES)|]. split; [exact PC|]. split.
      - unfold GenSpec.content, e. cbn [e_fld e_val]. now rewrite T.
      - eapply leads_x; eauto. }
    destruct (finish s fields types constants W DET SC x b es f I IF VN SP pre rest ES PL RT a z PC st (reset_dependent_fields fields x f) b 0 x') as (IN & F' & L' & BE); auto.
    { destruct ST as [->| ->]; auto. }
    exists pre, rest, e. repeat (split; [solve [auto]|]). split; [destruct RT as [[RN _]|RT]; auto|exact BE].
  Qed.
  (** the state that is entered *)
  Lemma enter_state st y f a l v x' : enter_field s fields types constants st y f a l v = Ok x' -> st <> S_Valid -> valid (x' @ f) = false.
  Proof.
    unfold enter_field. cbn zeta. intros E N. dbind E n SU. apply Ok_inj in E. subst x'.
    cbn [set_cursor set_message_last x_cursors]. unfold upd. destruct (String.eqb f n); [reflexivity|]. rewrite String.eqb_refl.
    unfold valid. cbn [c_state]. destruct st; [contradiction|reflexivity..].
  Qed.
  Lemma enter_buffer st y f a l v x' : enter_field s fields types constants st y f a l v = Ok x' ->
    x_buffer x' = x_buffer y /\ x_buffer_first x' = x_buffer_first y /\ x_buffer_last x' = x_buffer_last y.
  Proof. unfold enter_field. cbn zeta. intros E. dbind E n SU. apply Ok_inj in E. subst x'. auto. Qed.

  Lemma switch_pre_inv x f : switch_pre s fields types constants x f = Ok true ->
    has_buffer x = true /\ valid_next x f = Ok true /\ sufficient_space s fields types constants x f = Ok true /\
    (exists z, field_size x f = Ok z /\ 0 < z /\ field_cond s fields types constants x f 0 z = Ok true) /\
    (exists a, field_first x f = Ok a /\ a mod 8 = 1).
  Proof.
    unfold switch_pre. intros PRE.
    apply and_then_cons in PRE as [HB PRE]. apply and_then_cons in PRE as [VN PRE]. apply and_then_cons in PRE as [Z0 PRE].
    apply and_then_cons in PRE as [A PRE]. apply and_then_cons in PRE as [FC PRE]. apply and_then_cons in PRE as [SP _].
    apply Ok_inj in HB. split; [exact HB|]. split; [exact VN|]. split; [exact SP|]. split.
    - dbind FC z EZ. exists z. split; [exact EZ|]. split; [|exact FC]. rewrite EZ in Z0. cbn [bind] in Z0. apply Ok_inj in Z0. now apply Z.ltb_lt.
    - dbind A a EA. exists a. split; [exact EA|]. apply Ok_inj in A. now apply Z.eqb_eq.
  Qed.

  (** what Switch_To_<Field> does *)
  Theorem switch_inv x b es f x' c : Inv x b es -> In f fields -> types f = FComposite ->
    switch_pre s fields types constants x f = Ok true -> switch s fields types constants x f = Ok (x', c) ->
    exists es' e, In e es' /\ e_fld e = f /\ Inv (set_buffer x' (Some b)) b es' /\ x_buffer x' = None /\
      x_first x' = x_first x /\ x_last x' = x_last x /\ e_first e <= e_last e /\ e_first e mod 8 = 1 /\
      (structural_valid (x @ f) = true -> es' = es /\ x' = set_buffer x None) /\
      (structural_valid (x @ f) = false -> exists pre, es' = pre ++ [e] /\ (exists rest, es = pre ++ rest) /\
        valid (x' @ f) = false /\ forall g, In g fields -> (rank fields g < rank fields f)%nat -> x' @ g = x @ g) /\
      P_ScalarSeq.holds index_last c b /\ ScalarSeq.state_valid c = true /\ ScalarSeq.first c = e_first e /\ ScalarSeq.last c = e_last e /\
      ScalarSeq.sequence_last c = e_first e - 1 /\ ScalarSeq.buffer_first c = b_first b /\ ScalarSeq.buffer_last c = b_last b.
  Proof.
    intros I IF T PRE E. destruct (switch_pre_inv x f PRE) as (HB & VN & SP & (z & EZ & Z0 & FC) & (a & EA & A8)).
    pose proof (i_bounds _ _ _ _ _ _ _ I) as (BB & WB & B1 & B2 & _).
    unfold switch in E. rewrite EA in E. cbn [bind] in E. dbind E l EL. destruct (field_last_inv _ _ _ _ _ _ _ EL) as (a' & z' & EA' & EZ' & LE).
    assert (a' = a) by congruence. assert (z' = z) by congruence. subst a' z'.
    dbind E y EY.
    assert (SVI : structural_valid (x @ f) = negb (invalid (x @ f))) by (unfold structural_valid, invalid; destruct (c_state _); reflexivity).
    assert (Y : exists es' e, In e es' /\ e_fld e = f /\ Inv y b es' /\ x_first y = x_first x /\ x_last y = x_last x /\
              e_first e = a /\ e_last e = l /\ x_buffer y = Some b /\
              (structural_valid (x @ f) = true -> es' = es /\ y = x) /\
              (structural_valid (x @ f) = false -> exists pre, es' = pre ++ [e] /\ (exists rest, es = pre ++ rest) /\
                valid (y @ f) = false /\ forall g, In g fields -> (rank fields g < rank fields f)%nat -> y @ g = x @ g)).
    { destruct (invalid (x @ f)) eqn:IV.
      - assert (SR : set_result s fields types constants x b es f 0 y b).
        { apply (enter_composite x b es f S_Structural_Valid a l y); auto. eauto. }
        destruct SR as (pre & rest & e & ES & EF & EV & IN & F' & L' & AE & _ & _ & _ & BE).
        exists (pre ++ [e]), e. split; [apply in_or_app; right; now left|]. split; [exact EF|]. split; [exact IN|]. split; [exact F'|]. split; [exact L'|].
        pose proof (i_cur _ _ _ _ _ _ _ IN pre e [] eq_refl) as (_ & _ & _ & C1 & C2 & _).
        assert (CC : c_first (y @ f) = a /\ c_last (y @ f) = l).
        { unfold enter_field in EY. cbn zeta in EY. dbind EY n SU. apply Ok_inj in EY. subst y.
          rewrite EF in C1, C2. cbn [set_cursor set_message_last x_cursors] in *. unfold upd in *.
          pose proof (i_cur _ _ _ _ _ _ _ IN pre e [] eq_refl) as (SV & _). rewrite EF in SV. cbn [set_cursor set_message_last x_cursors] in SV. unfold upd in SV.
          destruct (String.eqb f n); [discriminate SV|]. rewrite String.eqb_refl in *. cbn. auto. }
        rewrite EF in C1, C2. destruct CC. split; [congruence|]. split; [congruence|]. split.
        { destruct (enter_buffer _ _ _ _ _ _ _ EY) as (Q & _). rewrite Q.
          destruct (reset_bounds s fields types constants W x b es f I IF) as (_ & _ & RB). apply RB. }
        split; [intros Q; rewrite SVI in Q; discriminate|]. intros _. exists pre. split; [reflexivity|]. split; [eauto|]. split; [|exact BE].
        eapply enter_state; [exact EY|discriminate].
      - apply Ok_inj in EY. subst y. assert (SV : structural_valid (x @ f) = true) by (rewrite SVI; reflexivity).
        destruct (inv_covers _ _ _ _ _ _ _ I f IF SV) as (e & J & EF & _). exists es, e. split; [exact J|]. split; [exact EF|]. split; [exact I|].
        split; [reflexivity|]. split; [reflexivity|]. apply in_split in J as (pre & post & ES).
        destruct (entry_computed x b es pre e post I ES) as [CA CZ]. rewrite EF in CA, CZ. pose proof (CA a EA). pose proof (CZ z EZ).
        split; [auto|]. split; [lia|]. split; [exact BB|]. split; [auto|]. intros Q. congruence. }
    clear EY. destruct Y as (es' & e & J & EF & IY & F' & L' & QA & QL & BY & C1 & C2).
    unfold take_buffer in E. unfold has_buffer in E. rewrite BY in E. cbn [bind fst snd] in E.
    pose proof (i_bounds _ _ _ _ _ _ _ IY) as (_ & _ & YB1 & YB2 & _).
    change (x_buffer_first (set_buffer y None)) with (x_buffer_first y) in E. change (x_buffer_last (set_buffer y None)) with (x_buffer_last y) in E.
    rewrite YB1, YB2 in E. dbind E q EQ. apply Ok_inj in E. injection E as <- <-.
    destruct (seq_initialize b _ _ a l q WB EQ) as (H & H1 & H2 & H3 & H4 & H5 & H6).
    exists es', e. split; [exact J|]. split; [exact EF|]. rewrite set_buffer_twice, (set_buffer_same y b BY). split; [exact IY|]. split; [reflexivity|].
    split; [exact F'|]. split; [exact L'|]. split; [lia|]. split; [now rewrite QA|]. split.
    - intros SV. destruct (C1 SV) as [-> ->]. auto.
    - split; [exact C2|]. rewrite QA, QL. auto 8.
  Qed.
End Facts.
