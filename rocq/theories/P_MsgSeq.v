(** C05: message sequences. *)
From Coq Require Import String List ZArith Bool Lia PeanoNat.
From Verif Require Import Base AdaTypes AdaBuffer AdaBufferFacts MsgSeq.
Import ListNotations.
Local Open Scope list_scope.
Local Open Scope Z_scope.

(** who holds a buffer *)
Inductive holder := HSeq (i : nat) | HElem (i : nat) | HVar (i : nat).
Definition held (p : pointer) : option nat := option_map fst p.
Definition owner (w : world) (h : holder) : option nat :=
  match h with
  | HSeq i => held (buf (seqs w i))
  | HElem i => held (e_buf (elems w i))
  | HVar i => held (vars w i)
  end.
(** no buffer has two holders *)
Definition exclusive (w : world) : Prop := forall h h' n, owner w h = Some n -> owner w h' = Some n -> h = h'.

Section MessageSequence.
  Variable index_last : Z.
  Notation pred := (context_predicate index_last).
  Notation epred := (econtext_predicate index_last).
  Notation act := (act index_last).
  Notation history := (history index_last).

  Definition all_right (w : world) : Prop :=
    (forall i, pred (seqs w i) = true) /\ (forall i, epred (elems w i) = true) /\ exclusive w.

  Lemma pred_iff c : pred c = true <->
    match buf c with Some (_, b) => b_first b = buffer_first c /\ b_last b = buffer_last c | None => True end /\
    buffer_first c <= Byte_Index (first c) /\ Byte_Index (last c) <= buffer_last c /\ first c mod 8 = 1 /\
    first c <= last c /\ last c <= bit_last index_last - 1 /\ first c - 1 <= sequence_last c /\ sequence_last c <= last c.
  Proof.
    unfold context_predicate. rewrite !andb_true_iff, !Z.leb_le, Z.eqb_eq.
    destruct (buf c) as [[n b]|]; rewrite ?andb_true_iff, ?Z.eqb_eq; tauto.
  Qed.
  Lemma epred_iff e : epred e = true <->
    match e_buf e with Some (_, b) => b_first b = e_buffer_first e /\ b_last b = e_buffer_last e | None => True end /\
    e_buffer_first e <= Byte_Index (e_first e) /\ Byte_Index (e_last e) <= e_buffer_last e /\
    e_first e <= e_last e /\ e_last e < bit_last index_last /\ e_first e <= e_message_last e /\ e_message_last e <= e_last e.
  Proof.
    unfold econtext_predicate. rewrite !andb_true_iff, !Z.leb_le, Z.ltb_lt.
    destruct (e_buf e) as [[n b]|]; rewrite ?andb_true_iff, ?Z.eqb_eq; tauto.
  Qed.
  Lemma checked_ok c c' : checked index_last c = Ok c' -> c' = c /\ pred c = true.
  Proof. unfold checked. destruct (pred c); [|discriminate]. intros E. apply Ok_inj in E. auto. Qed.
  Lemma echecked_ok e e' : echecked index_last e = Ok e' -> e' = e /\ epred e = true.
  Proof. unfold echecked. destruct (epred e); [|discriminate]. intros E. apply Ok_inj in E. auto. Qed.

  (** Switch succeeds whenever its precondition holds, hands the buffer over and starts
      the element right behind the sequence. *)
  Theorem C05_switch c : pred c = true -> has_buffer c = true -> has_element c = true ->
    exists c' e, switch index_last c = Ok (c', e) /\ pred c' = true /\ epred e = true /\
      buf c' = None /\ e_buf e = buf c /\ e_first e = sequence_last c + 1 /\ e_last e = last c /\
      e_buffer_first e = buffer_first c /\ e_buffer_last e = buffer_last c /\ first c <= e_first e /\
      sequence_last c' = sequence_last c /\ first c' = first c /\ last c' = last c /\
      state_valid c' = true /\ has_element c' = true.
  Proof.
    intros P HB HE. unfold switch. rewrite HB, HE. pose proof HE as HE'. unfold has_element in HE'.
    apply andb_true_iff in HE' as [SV LT]. apply Z.ltb_lt in LT. rewrite SV. cbn [andb].
    unfold has_buffer in HB. destruct (buf c) as [[n b]|] eqn:B; [|discriminate].
    pose proof P as P'. apply pred_iff in P'. rewrite B in P'. destruct P' as ((B1 & B2) & P1 & P2 & P3 & P4 & P5 & P6 & P7).
    unfold checked.
    assert (PC : pred (mkContext (buffer_first c) (buffer_last c) (first c) (last c) (sequence_last c) None true) = true).
    { apply pred_iff. cbn [buf buffer_first buffer_last first last sequence_last]. tauto. }
    rewrite PC. cbn [bind]. unfold element_initialize.
    pose proof (byte_index_mono (first c) (sequence_last c + 1) ltac:(lia)).
    pose proof (byte_index_mono (first c) (last c) ltac:(lia)).
    assert (LEN : 0 < Z.of_nat (length (b_data b))) by (unfold b_last in B2; lia).
    destruct (Z.ltb_spec 0 (Z.of_nat (length (b_data b)))); [|lia].
    destruct (Z.leb_spec (b_first b) (Byte_Index (sequence_last c + 1))); [|lia].
    destruct (Z.leb_spec (Byte_Index (last c)) (b_last b)); [|lia].
    destruct (Z.leb_spec (sequence_last c + 1) (last c)); [|lia].
    destruct (Z.ltb_spec (last c) (bit_last index_last)); [|lia]. cbn [andb]. unfold echecked.
    assert (PE : epred (mkEContext (b_first b) (b_last b) (sequence_last c + 1) (last c) (sequence_last c + 1) (Some (n, b)) false) = true).
    { apply epred_iff. cbn [e_buf e_buffer_first e_buffer_last e_first e_last e_message_last]. lia. }
    rewrite PE. cbn [bind fst]. eexists _, _. split; [reflexivity|]. split; [exact PC|]. split; [exact PE|].
    cbn. unfold has_element. cbn. rewrite <- B1, <- B2. destruct (Z.ltb_spec (sequence_last c) (last c)); [|lia].
    split; [reflexivity|]. repeat (split; [first [reflexivity|lia]|]). reflexivity.
  Qed.
  (** Update succeeds whenever its precondition holds: the buffer goes back, and the
      sequence advances to the end of the element if that is valid, or else becomes
      invalid without advancing. *)
  Theorem C05_update c e : pred c = true -> epred e = true -> update_pre c e = true ->
    exists c' e', update index_last c e = Ok (c', e') /\ pred c' = true /\ epred e' = true /\
      buf c' = e_buf e /\ e_buf e' = None /\ first c' = first c /\ last c' = last c /\
      (e_valid_message e = true -> sequence_last c' = e_message_last e /\ state_valid c' = true) /\
      (e_valid_message e = false -> sequence_last c' = sequence_last c /\ state_valid c' = false).
  Proof.
    intros P PE PRE. unfold update. rewrite PRE. unfold update_pre in PRE.
    rewrite !andb_true_iff, !Z.leb_le, !Z.eqb_eq in PRE.
    destruct PRE as (((((((NB & HB) & HE) & SV) & F1) & F2) & F3) & F4).
    unfold element_take_buffer. rewrite HB. unfold e_has_buffer in HB. destruct (e_buf e) as [[n b]|] eqn:B; [|discriminate].
    pose proof PE as PE'. apply epred_iff in PE'. rewrite B in PE'. destruct PE' as ((B1 & B2) & P1 & P2 & P3 & P4 & P5 & P6).
    apply pred_iff in P. unfold has_buffer in NB. destruct (buf c) as [x|]; [discriminate|].
    destruct P as (_ & Q1 & Q2 & Q3 & Q4 & Q5 & Q6 & Q7).
    unfold echecked.
    assert (PE2 : epred (mkEContext (e_buffer_first e) (e_buffer_last e) (e_first e) (e_last e) (e_message_last e) None (e_valid_message e)) = true).
    { apply epred_iff. cbn [e_buf e_buffer_first e_buffer_last e_first e_last e_message_last]. tauto. }
    rewrite PE2. cbn [bind fst snd]. unfold checked.
    assert (PC : pred (mkContext (buffer_first c) (buffer_last c) (first c) (last c)
      (if e_valid_message e then e_message_last e else sequence_last c) (Some (n, b)) (if e_valid_message e then state_valid c else false)) = true).
    { apply pred_iff. cbn [buf buffer_first buffer_last first last sequence_last]. destruct (e_valid_message e); lia. }
    rewrite SV in PC. destruct (e_valid_message e); rewrite ?SV, PC; cbn [bind]; eexists _, _; (split; [reflexivity|]); cbn;
      (split; [exact PC|]); (split; [exact PE2|]); repeat (split; [reflexivity|]); split; intros; try discriminate; auto.
  Qed.

  Lemma upd_same {A} (f : nat -> A) i x : upd f i x i = x.
  Proof. unfold upd. now rewrite Nat.eqb_refl. Qed.
  Lemma upd_other {A} (f : nat -> A) i x j : j <> i -> upd f i x j = f j.
  Proof. unfold upd. intros N. apply Nat.eqb_neq in N. now rewrite N. Qed.
  Ltac ua := let j := fresh in intros j; unfold upd; destruct (Nat.eqb j _); auto.

  (** a buffer moves from one holder to another one: all others keep theirs *)
  Lemma move_exclusive w w' from to : exclusive w ->
    owner w' to = owner w from -> (from <> to -> owner w' from = None) ->
    (forall h, h <> from -> h <> to -> owner w' h = owner w h) -> exclusive w'.
  Proof.
    intros X T F O h h' n E E'.
    assert (holder_dec : forall a b : holder, {a = b} + {a <> b}) by (decide equality; apply Nat.eq_dec).
    assert (K : forall h, owner w' h = Some n -> (h = to /\ owner w from = Some n) \/ (h <> to /\ h <> from /\ owner w h = Some n)).
    { intros g G. destruct (holder_dec g to) as [->|N]; [left; split; congruence|].
      destruct (holder_dec g from) as [->|N2]; [rewrite F in G by exact N; discriminate|]. right. rewrite <- O; auto. }
    destruct (K h E) as [[-> A]|(A1 & A2 & A3)], (K h' E') as [[-> B]|(B1 & B2 & B3)].
    - reflexivity.
    - exfalso. apply B2. exact (X h' from n B3 A).
    - exfalso. apply A2. exact (X h from n A3 B).
    - exact (X h h' n A3 B3).
  Qed.

  Lemma act_right a w w' : all_right w -> act a w = Ok w' -> all_right w'.
  Proof.
    intros (S1 & E1 & X) A. destruct a as [s v f l|s v|s e|s e|e v f l|e v|e b m valid]; cbn [MsgSeq.act] in A.
    - destruct (vars w v) as [[n b]|] eqn:V; [|discriminate]. unfold initialize_bounds in A.
      destruct (_ && _) in A; [|discriminate]. destruct (checked _ _) as [c|] eqn:C in A; [|discriminate]. cbn [bind] in A.
      apply Ok_inj in A. subst w'. apply checked_ok in C as [-> C]. split; [|split]; cbn [seqs elems vars fst snd].
      + ua.
      + exact E1.
      + apply (move_exclusive w _ (HVar v) (HSeq s)); [exact X|cbn; rewrite upd_same, V; reflexivity|intros _; cbn; now rewrite upd_same|].
        intros [i|i|i] N1 N2; cbn; rewrite ?upd_other by congruence; reflexivity.
    - unfold take_buffer in A. destruct (has_buffer _) in A; [|discriminate].
      destruct (checked _ _) as [c|] eqn:C in A; [|discriminate]. cbn [bind] in A. apply Ok_inj in A. subst w'. apply checked_ok in C as [-> C].
      split; [|split]; cbn [seqs elems vars fst snd].
      + ua.
      + exact E1.
      + apply (move_exclusive w _ (HSeq s) (HVar v)); [exact X|cbn; rewrite upd_same; reflexivity|intros _; cbn; now rewrite upd_same|].
        intros [i|i|i] N1 N2; cbn; rewrite ?upd_other by congruence; reflexivity.
    - assert (PRE : has_buffer (seqs w s) = true /\ has_element (seqs w s) = true).
      { unfold switch in A. destruct (has_buffer _); [|discriminate]. destruct (has_element _); [|discriminate]. auto. }
      destruct (C05_switch (seqs w s) (S1 s) (proj1 PRE) (proj2 PRE)) as (c' & e' & SW & PC & PE & BN & BE & _).
      rewrite SW in A. cbn [bind fst snd] in A. apply Ok_inj in A. subst w'. split; [|split]; cbn [seqs elems vars].
      + ua.
      + ua.
      + apply (move_exclusive w _ (HSeq s) (HElem e)); [exact X|cbn; rewrite upd_same, BE; reflexivity|intros _; cbn; now rewrite upd_same, BN|].
        intros [i|i|i] N1 N2; cbn; rewrite ?upd_other by congruence; reflexivity.
    - assert (PRE : update_pre (seqs w s) (elems w e) = true).
      { unfold update in A. destruct (update_pre _ _); [reflexivity|discriminate]. }
      destruct (C05_update (seqs w s) (elems w e) (S1 s) (E1 e) PRE) as (c' & e' & UP & PC & PE & BN & BE & _).
      rewrite UP in A. cbn [bind fst snd] in A. apply Ok_inj in A. subst w'. split; [|split]; cbn [seqs elems vars].
      + ua.
      + ua.
      + apply (move_exclusive w _ (HElem e) (HSeq s)); [exact X|cbn; rewrite upd_same, BN; reflexivity|intros _; cbn; now rewrite upd_same, BE|].
        intros [i|i|i] N1 N2; cbn; rewrite ?upd_other by congruence; reflexivity.
    - destruct (vars w v) as [[n b]|] eqn:V; [|discriminate]. unfold element_initialize in A.
      destruct (_ && _) in A; [|discriminate]. destruct (echecked _ _) as [c|] eqn:C in A; [|discriminate]. cbn [bind] in A.
      apply Ok_inj in A. subst w'. apply echecked_ok in C as [-> C]. split; [|split]; cbn [seqs elems vars fst snd].
      + exact S1.
      + ua.
      + apply (move_exclusive w _ (HVar v) (HElem e)); [exact X|cbn; rewrite upd_same, V; reflexivity|intros _; cbn; now rewrite upd_same|].
        intros [i|i|i] N1 N2; cbn; rewrite ?upd_other by congruence; reflexivity.
    - unfold element_take_buffer in A. destruct (e_has_buffer _) in A; [|discriminate].
      destruct (echecked _ _) as [c|] eqn:C in A; [|discriminate]. cbn [bind] in A. apply Ok_inj in A. subst w'. apply echecked_ok in C as [-> C].
      split; [|split]; cbn [seqs elems vars fst snd].
      + exact S1.
      + ua.
      + apply (move_exclusive w _ (HElem e) (HVar v)); [exact X|cbn; rewrite upd_same; reflexivity|intros _; cbn; now rewrite upd_same|].
        intros [i|i|i] N1 N2; cbn; rewrite ?upd_other by congruence; reflexivity.
    - destruct (e_buf (elems w e)) as [[n b0]|] eqn:B; [|discriminate].
      destruct (echecked _ _) as [c|] eqn:C in A; [|discriminate]. cbn [bind] in A. apply Ok_inj in A. subst w'. apply echecked_ok in C as [-> C].
      split; [|split]; cbn [seqs elems vars].
      + exact S1.
      + ua.
      + apply (move_exclusive w _ (HElem e) (HElem e)); [exact X|cbn; rewrite upd_same, B; reflexivity|congruence|].
        intros [i|i|i] N1 N2; cbn; rewrite ?upd_other by congruence; reflexivity.
  Qed.

  (** In every history all context predicates hold and no buffer is held twice. *)
  Theorem C05_ownership w0 w : all_right w0 -> history w0 w -> all_right w.
  Proof. intros R H. induction H as [|w w' w'' a H IH A]; [exact R|]. exact (act_right a w' w'' (IH R) A). Qed.

  (** Only an update with a valid element advances a sequence. *)
  Theorem C05_advance a w w' s : all_right w -> act a w = Ok w' ->
    sequence_last (seqs w' s) <> sequence_last (seqs w s) ->
    (exists v f l, a = AInit s v f l) \/
    (exists e, a = AUpdate s e /\ e_valid_message (elems w e) = true /\
      sequence_last (seqs w' s) = e_message_last (elems w e) /\
      first (seqs w s) <= e_first (elems w e) <= sequence_last (seqs w' s) /\ sequence_last (seqs w' s) <= last (seqs w s)).
  Proof.
    intros (S1 & E1 & X) A D. destruct a as [i v f l|i v|i e|i e|e v f l|e v|e b m valid]; cbn [MsgSeq.act] in A.
    - destruct (Nat.eq_dec s i) as [->|N]; [left; eauto|]. exfalso. apply D.
      destruct (vars w v) as [[n b]|]; [|discriminate]. destruct (initialize_bounds _ _ _ _ _ _) as [r|] in A; [|discriminate].
      cbn [bind] in A. apply Ok_inj in A. subst w'. cbn. now rewrite upd_other.
    - exfalso. apply D. unfold take_buffer in A. destruct (has_buffer _) in A; [|discriminate].
      destruct (checked _ _) as [c|] eqn:C in A; [|discriminate]. cbn [bind] in A. apply Ok_inj in A. subst w'. apply checked_ok in C as [-> C].
      cbn. unfold upd. destruct (Nat.eqb_spec s i) as [->|N]; reflexivity.
    - exfalso. apply D. unfold switch in A. destruct (_ && _) in A; [|discriminate].
      destruct (checked _ _) as [c|] eqn:C in A; [|discriminate]. cbn [bind] in A. destruct (element_initialize _ _ _ _) in A; [|discriminate].
      cbn [bind] in A. apply Ok_inj in A. subst w'. apply checked_ok in C as [-> C].
      cbn. unfold upd. destruct (Nat.eqb_spec s i) as [->|N]; reflexivity.
    - destruct (Nat.eq_dec s i) as [->|N].
      2:{ exfalso. apply D. destruct (update _ _ _) in A; [|discriminate]. cbn [bind] in A. apply Ok_inj in A. subst w'. cbn. now rewrite upd_other. }
      right. exists e. split; [reflexivity|].
      assert (PRE : update_pre (seqs w i) (elems w e) = true).
      { unfold update in A. destruct (update_pre _ _); [reflexivity|discriminate]. }
      destruct (C05_update (seqs w i) (elems w e) (S1 i) (E1 e) PRE) as (c' & e' & UP & PC & PE & _ & _ & FF & LL & VT & VF).
      rewrite UP in A. cbn [bind fst snd] in A. apply Ok_inj in A. subst w'. cbn [seqs] in *. rewrite upd_same in *.
      unfold update_pre in PRE. rewrite !andb_true_iff, !Z.leb_le, !Z.eqb_eq in PRE. pose proof (E1 e) as PE0. apply epred_iff in PE0.
      destruct (e_valid_message (elems w e)).
      + destruct (VT eq_refl) as [-> _]. split; [reflexivity|]. split; [reflexivity|]. lia.
      + destruct (VF eq_refl) as [VS _]. exfalso. apply D. exact VS.
    - exfalso. apply D. destruct (element_initialize _ _ _ _) in A; [|discriminate]. cbn [bind] in A. apply Ok_inj in A. now subst w'.
    - exfalso. apply D. destruct (element_take_buffer _ _) in A; [|discriminate]. cbn [bind] in A. apply Ok_inj in A. now subst w'.
    - exfalso. apply D. destruct (e_buf (elems w e)) as [[n b0]|]; [|discriminate]. destruct (echecked _ _) in A; [|discriminate].
      cbn [bind] in A. apply Ok_inj in A. now subst w'.
  Qed.

  (** the actions that leave the sequence [s] alone and do not reuse the element
      context [e] *)
  Definition keeps (s e : nat) (a : action) : Prop :=
    match a with
    | AInit i _ _ _ | ATake i _ => i <> s
    | ASwitch i j => i <> s /\ j <> e
    | AUpdate i _ => i <> s
    | AElemInit j _ _ _ => j <> e
    | AElemTake _ _ | AWork _ _ _ _ => True
    end.
  Inductive keeping (s e : nat) : world -> world -> Prop :=
  | keeping_nil w : keeping s e w w
  | keeping_cons w w' w'' a : keeping s e w w' -> keeps s e a -> act a w' = Ok w'' -> keeping s e w w''.
  Lemma keep_step s e a w w' : keeps s e a -> act a w = Ok w' ->
    seqs w' s = seqs w s /\ e_first (elems w' e) = e_first (elems w e).
  Proof.
    intros K A. destruct a as [i v f l|i v|i j|i j|j v f l|j v|j b m valid]; cbn [keeps MsgSeq.act] in *.
    - destruct (vars w v) as [[n b]|]; [|discriminate]. destruct (initialize_bounds _ _ _ _ _ _) in A; [|discriminate].
      cbn [bind] in A. apply Ok_inj in A. subst w'. cbn. rewrite upd_other by congruence. auto.
    - destruct (take_buffer _ _) in A; [|discriminate]. cbn [bind] in A. apply Ok_inj in A. subst w'. cbn. rewrite upd_other by congruence. auto.
    - destruct K as [K1 K2]. destruct (switch _ _) in A; [|discriminate]. cbn [bind] in A. apply Ok_inj in A. subst w'. cbn. rewrite !upd_other by congruence. auto.
    - unfold update in A. destruct (update_pre _ _) in A; [|discriminate]. unfold element_take_buffer in A. destruct (e_has_buffer _) in A; [|discriminate].
      destruct (echecked _ _) as [x|] eqn:C in A; [|discriminate]. cbn [bind] in A. destruct (checked _ _) in A; [|discriminate].
      cbn [bind fst snd] in A. apply Ok_inj in A. subst w'. apply echecked_ok in C as [-> _]. cbn. rewrite upd_other by congruence. split; [reflexivity|].
      unfold upd. destruct (Nat.eqb_spec e j) as [->|N]; reflexivity.
    - destruct (element_initialize _ _ _ _) in A; [|discriminate]. cbn [bind] in A. apply Ok_inj in A. subst w'. cbn. rewrite upd_other by congruence. auto.
    - unfold element_take_buffer in A. destruct (e_has_buffer _) in A; [|discriminate].
      destruct (echecked _ _) as [x|] eqn:C in A; [|discriminate]. cbn [bind] in A. apply Ok_inj in A. subst w'. apply echecked_ok in C as [-> _]. cbn.
      split; [reflexivity|]. unfold upd. destruct (Nat.eqb_spec e j) as [->|N]; reflexivity.
    - destruct (e_buf (elems w j)) as [[n b0]|]; [|discriminate]. destruct (echecked _ _) as [x|] eqn:C in A; [|discriminate].
      cbn [bind] in A. apply Ok_inj in A. subst w'. apply echecked_ok in C as [-> _]. cbn. split; [reflexivity|]. unfold upd. destruct (Nat.eqb_spec e j) as [->|N]; reflexivity.
  Qed.
  (** Switch, then anything else, then Update with the same element context: the
      sequence advances strictly if the element is valid, and stays where it is
      otherwise; it never leaves its area. *)
  Theorem C05_monotone w0 w1 w2 w3 s e : all_right w0 ->
    act (ASwitch s e) w0 = Ok w1 -> keeping s e w1 w2 -> act (AUpdate s e) w2 = Ok w3 ->
    sequence_last (seqs w0 s) <= sequence_last (seqs w3 s) <= last (seqs w0 s) /\
    last (seqs w3 s) = last (seqs w0 s) /\
    (sequence_last (seqs w0 s) < sequence_last (seqs w3 s) <-> e_valid_message (elems w2 e) = true).
  Proof.
    intros R0 A1 K A3. pose proof R0 as (S0 & _ & _).
    assert (R1 : all_right w1) by (eapply act_right; eauto).
    assert (L1 : e_first (elems w1 e) = sequence_last (seqs w1 s) + 1 /\ sequence_last (seqs w1 s) = sequence_last (seqs w0 s) /\ last (seqs w1 s) = last (seqs w0 s)).
    { cbn [MsgSeq.act] in A1.
      assert (PRE : has_buffer (seqs w0 s) = true /\ has_element (seqs w0 s) = true).
      { unfold switch in A1. destruct (has_buffer _); [|discriminate]. destruct (has_element _); [|discriminate]. auto. }
      destruct (C05_switch (seqs w0 s) (S0 s) (proj1 PRE) (proj2 PRE)) as (c' & e' & SW & PC & PE & BN & BE & EF & EL & _ & _ & _ & SL & _ & LL & _).
      rewrite SW in A1. cbn [bind fst snd] in A1. apply Ok_inj in A1. subst w1. cbn. rewrite !upd_same. lia. }
    assert (R2 : all_right w2 /\ seqs w2 s = seqs w1 s /\ e_first (elems w2 e) = e_first (elems w1 e)).
    { clear A1 A3 L1 w0 R0 S0. induction K as [|w w' w'' a K IH KS A]; [auto|]. destruct (IH R1) as (R & Q1 & Q2).
      destruct (keep_step s e a w' w'' KS A) as [Q3 Q4]. split; [eapply act_right; eauto|]. split; congruence. }
    destruct R2 as (R2 & Q1 & Q2). pose proof R2 as (S2 & E2 & _). cbn [MsgSeq.act] in A3.
    assert (PRE : update_pre (seqs w2 s) (elems w2 e) = true).
    { unfold update in A3. destruct (update_pre _ _); [reflexivity|discriminate]. }
    destruct (C05_update (seqs w2 s) (elems w2 e) (S2 s) (E2 e) PRE) as (c' & e' & UP & PC & PE & _ & _ & FF & LL & VT & VF).
    rewrite UP in A3. cbn [bind fst snd] in A3. apply Ok_inj in A3. subst w3. cbn. rewrite upd_same.
    apply pred_iff in PC. pose proof (E2 e) as PE2. apply epred_iff in PE2. rewrite Q1 in *.
    destruct (e_valid_message (elems w2 e)).
    - destruct (VT eq_refl) as [VS _]. repeat split; lia.
    - destruct (VF eq_refl) as [VS _]. repeat split; try lia; try discriminate.
  Qed.
End MessageSequence.
Print Assumptions C05_switch.
Print Assumptions C05_update.
Print Assumptions C05_ownership.
Print Assumptions C05_advance.
Print Assumptions C05_monotone.

(** Two sequences over two buffers with the same bounds. *)
Definition ex_buffer : buffer := mkBuffer 1 [0; 0; 0; 0].
Definition ex_world : world :=
  mkWorld (fun _ => mkContext 1 1 1 1 0 None true) (fun _ => mkEContext 1 1 1 1 1 None false)
    (fun i => Some (i, ex_buffer)).
Lemma ex_world_right : all_right 1000 ex_world.
Proof.
  split; [intros; reflexivity|]. split; [intros; reflexivity|].
  intros [i|i|i] [j|j|j] n E E'; cbn in *; try discriminate. congruence.
Qed.
Definition run (l : list action) : res world :=
  fold_left (fun r a => bind r (act 1000 a)) l (Ok ex_world).
Lemma run_history l : forall w0 w, fold_left (fun r a => bind r (act 1000 a)) l (Ok w0) = Ok w -> history 1000 w0 w.
Proof.
  induction l as [|a l IH] using rev_ind; intros w0 w E.
  - apply Ok_inj in E. subst. constructor.
  - rewrite fold_left_app in E. cbn in E.
    destruct (fold_left (fun r a => bind r (act 1000 a)) l (Ok w0)) as [w'|] eqn:F; [|discriminate].
    econstructor; [exact (IH _ _ F)|exact E].
Qed.
Definition view (r : res world) : option (list (Z * bool * option nat)) :=
  match r with
  | Ok w => Some (map (fun i => (sequence_last (seqs w i), state_valid (seqs w i), held (buf (seqs w i)))) [0%nat; 1%nat])
  | Err _ => None
  end.
Example C05_meets :
  view (run [AInit 0 0 1 32; ASwitch 0 0; AWork 0 ex_buffer 16 true; AUpdate 0 0;
             ASwitch 0 0; AWork 0 ex_buffer 20 false; AUpdate 0 0])
  = Some [(16, false, Some 0%nat); (0, true, None)].
Proof. vm_compute. reflexivity. Qed.
(** The precondition of Update does not demand the element context that was obtained
    from the sequence: a sequence can go back, and it then holds another buffer. *)
Theorem C05_foreign_refuted : exists w w', history 1000 ex_world w /\ history 1000 w w' /\
  sequence_last (seqs w 0) = 24 /\ sequence_last (seqs w' 0) = 8 /\
  owner w (HSeq 0) = Some 0%nat /\ owner w' (HSeq 0) = Some 1%nat.
Proof.
  set (l1 := [AInit 0 0 1 32; AInit 1 1 1 32; ASwitch 0 0; AWork 0 ex_buffer 24 true; AUpdate 0 0]).
  set (l2 := [ASwitch 0 0; ASwitch 1 1; AWork 1 ex_buffer 8 true; AUpdate 0 1]).
  destruct (fold_left (fun r a => bind r (act 1000 a)) l1 (Ok ex_world)) as [w|] eqn:E1; [|vm_compute in E1; discriminate].
  destruct (fold_left (fun r a => bind r (act 1000 a)) l2 (Ok w)) as [w'|] eqn:E2.
  2:{ exfalso. revert E2. assert (X : fold_left (fun r a => bind r (act 1000 a)) l2 (Ok w) = fold_left (fun r a => bind r (act 1000 a)) l2 (run l1)) by (unfold run; now rewrite E1).
      rewrite X. vm_compute. discriminate. }
  exists w, w'. split; [exact (run_history _ _ _ E1)|]. split; [exact (run_history _ _ _ E2)|].
  assert (V1 : view (Ok w) = Some [(24, true, Some 0%nat); (0, true, Some 1%nat)]) by (rewrite <- E1; vm_compute; reflexivity).
  assert (V2 : view (Ok w') = Some [(8, true, Some 1%nat); (0, true, None)]).
  { rewrite <- E2. replace (@Ok world w) with (run l1) by exact E1. vm_compute. reflexivity. }
  cbn [view map] in V1, V2. injection V1 as -> _ A _ _. injection V2 as -> _ B _ _.
  cbn [owner]. rewrite A, B. auto.
Qed.
Print Assumptions C05_foreign_refuted.
