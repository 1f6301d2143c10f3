(** C37, C38, C39: the generated parser and serializer of a message.

    What a buffer contains is said in GenSpec.v without reference to the generated
    code: [run first last b es] means that the bits first .. last of [b] start with
    the fields [es] (each at the place given by the links whose conditions hold, with
    the value given by its bits), [complete] that the message ends there. *)
From Coq Require Import String List ZArith Bool Lia Arith.
From Verif Require Import Base Expr ExprEval MsgGraph MsgGraphFacts AdaTypes P_AdaTypes AdaBuffer AdaBufferFacts GenCode GenSpec GenFacts
  GenRun GenInv GenVerify GenMessage GenSet GenPred.
Import ListNotations.
Local Open Scope string_scope.
Local Open Scope list_scope.
Local Open Scope Z_scope.
Local Open Scope res_scope.
Local Notation length := List.length.

(** ** Statements *)

(** messages for which code is generated: the structural checks passed, the sizes of
    scalars are those of C20, and at most one link leads on (what message.py:865-894
    asks the solver) *)
Record accepted (n : nat) (m : message) (fields : list field) (types : field -> ftype) (constants : name -> option Z) : Prop := {
  acc_construct : construct n m = Ok ([], fields);
  acc_final : forall l, In l (structure m) -> source l <> FINAL;
  acc_types : forall f size vd, types f = FScalar size vd -> 1 <= size <= 64;
  acc_det : deterministic (structure m) types constants
}.

(** what the API of a context tells about the fields is [es] *)
Definition shows (fields : list field) (x : context) (es : list entry) : Prop :=
  (forall f, In f fields -> (structural_valid (x_cursors x f) = true <-> In f (map e_fld es))) /\
  (forall e, In e es -> c_first (x_cursors x (e_fld e)) = e_first e /\ c_last (x_cursors x (e_fld e)) = e_last e /\
                        get_field x (e_fld e) = Ok (e_val e)) /\
  x_message_last x = List.last (map e_last es) (x_first x).

(** a buffer and bounds with which Initialize may be called *)
Definition input (b : buffer) (first last : Z) : Prop :=
  wf_buf b /\ 1 <= first /\ initialize_pre b first last = true.

(** conditions on the size of the scalar they start at *)
Definition no_own_size (s : list link) (types : field -> ftype) : Prop :=
  forall l, In l s -> types (source l) <> FComposite -> ~ In (NAttr ASize (source l)) (names (condition l)).

(** calls of a client; a setter is called only if its precondition holds *)
Inductive op := OVerify (f : field) | OSet (f : field) (v : Z) | OComposite (st : cstate) (f : field)
  | OOpaque (st : cstate) (f : field) (value : list Z).
Definition guarded (p : res bool) (r : res context) : res context :=
  let* ok := p in check ok msg "precondition"; r.
Section Ops.
  Context (s : list link) (fields : list field) (types : field -> ftype) (constants : name -> option Z).
  Definition exec (x : context) (o : op) : res context :=
    match o with
    | OVerify f => verify s fields types constants x f
    | OSet f v => guarded (set_scalar_pre s fields types constants x f v) (set_scalar s fields types constants x f v)
    | OComposite st f => guarded (set_composite_pre s fields types constants x f) (set_composite s fields types constants st x f)
    | OOpaque st f value =>
      guarded (set_opaque_pre s fields types constants x f value) (set_opaque s fields types constants st x f value)
    end.
  Fixpoint exec_all (x : context) (os : list op) : res context :=
    match os with [] => Ok x | o :: t => let* y := exec x o in exec_all y t end.
  (** the arguments are of the right types *)
  Definition op_field (o : op) : field := match o with OVerify f | OSet f _ | OComposite _ f | OOpaque _ f _ => f end.
  Definition typed (o : op) : Prop :=
    In (op_field o) fields /\
    match o with
    | OVerify _ => True
    | OSet f v => exists size vd, types f = FScalar size vd /\ 0 <= v < 2 ^ size
    | OComposite st f => types f = FComposite /\ (st = S_Valid \/ st = S_Structural_Valid)
    | OOpaque st f value => types f = FComposite /\ (st = S_Valid \/ st = S_Structural_Valid) /\ wf_buffer value
    end.
End Ops.

(** ** Proofs *)

Section Proofs.
  Context (n : nat) (m : message) (fields : list field) (types : field -> ftype) (constants : name -> option Z).
  Local Notation s := (structure m).
  Context (A : accepted n m fields types constants).
  Local Notation Inv := (Inv s fields types constants).

  Lemma acc_wf : wf s fields.
  Proof. eapply wf_construct; [apply A|apply A]. Qed.
  Local Notation W := acc_wf.
  Local Notation TS := (acc_types _ _ _ _ _ A).
  Local Notation DET := (acc_det _ _ _ _ _ A).

  Lemma inv_shows x b es : Inv x b es -> shows fields x es.
  Proof.
    intros I. split; [|split].
    - intros f IF. split.
      + intros V. destruct (in_dec String.string_dec f (map e_fld es)) as [J|J]; [exact J|].
        destruct (i_rest _ _ _ _ _ _ _ I f IF J). congruence.
      + intros J. apply in_map_iff in J as (e & <- & J). apply in_split in J as (pre & post & E).
        apply (i_cur _ _ _ _ _ _ _ I pre e post E).
    - intros e J. apply in_split in J as (pre & post & E).
      destruct (i_cur _ _ _ _ _ _ _ I pre e post E) as (V & _ & _ & C1 & C2 & C3 & C4). split; [exact C1|]. split; [exact C2|].
      unfold get_field. rewrite V, C3, String.eqb_refl, C4. reflexivity.
    - apply (i_last _ _ _ _ _ _ _ I).
  Qed.

  Lemma verified_inv b first last fs x : input b first last -> (forall f, In f fs -> In f fields) ->
    verify_all s fields types constants (initialize fields b first last) fs = Ok x ->
    exists es, Inv x b es /\ x_first x = first /\ x_last x = last /\
      (last + 1 < Bit_Length_Last -> inc s fields types constants x b es).
  Proof.
    intros (WB & F1 & IP) IN V. destruct (initialize_inv s fields types constants W b first last WB F1 IP) as [I _].
    destruct (verify_all_inv s fields types constants W TS DET fs _ b [] x I IN V) as (es & I' & F' & L' & _ & _ & IC).
    exists es. split; [exact I'|]. split; [exact F'|]. split; [exact L'|]. intros LL. apply IC; [|exact LL]. apply initialize_inc.
  Qed.

  Lemma exec_inv x b es o x' : scoped s fields -> no_overlay s -> no_own_size s types -> Inv x b es ->
    typed fields types o -> exec s fields types constants x o = Ok x' ->
    exists b' es', Inv x' b' es' /\ x_first x' = x_first x /\ x_last x' = x_last x /\
      b_first b' = b_first b /\ length (b_data b') = length (b_data b).
  Proof.
    intros SC NO NS I [IF TY] E. destruct o as [f|f v|st f|st f value]; cbn [op_field exec] in *.
    - destruct (verify_inv s fields types constants W TS DET x b es f x' I IF E) as (es' & I' & F' & L' & _). exists b, es'. auto.
    - destruct TY as (size & vd & T & VR). unfold guarded in E. dbind E ok PRE. destruct ok; [|discriminate].
      destruct (set_scalar_inv s fields types constants W TS DET SC NO x b es f size vd v x') as (b' & (pre & rest & e & SR) & _); auto.
      + intros l IL S. rewrite <- S. apply (NS l IL). rewrite S, T. discriminate.
      + destruct SR as (_ & _ & _ & I' & F' & L' & _ & BF & BL & _). exists b', (pre ++ [e]). auto.
    - destruct TY as [T ST]. unfold guarded in E. dbind E ok PRE. destruct ok; [|discriminate].
      destruct (set_composite_inv s fields types constants W DET SC NO st x b es f x') as (pre & rest & e & SR); auto.
      destruct SR as (_ & _ & _ & I' & F' & L' & _ & BF & BL & _). exists b, (pre ++ [e]). auto.
    - destruct TY as (T & ST & WV). unfold guarded in E. dbind E ok PRE. destruct ok; [|discriminate].
      destruct (set_opaque_inv s fields types constants W DET SC NO st x b es f value x') as (b' & (pre & rest & e & SR) & _); auto.
      destruct SR as (_ & _ & _ & I' & F' & L' & _ & BF & BL & _). exists b', (pre ++ [e]). auto.
  Qed.
  Lemma exec_all_inv os : scoped s fields -> no_overlay s -> no_own_size s types ->
    forall x b es x', Inv x b es -> (forall o, In o os -> typed fields types o) -> exec_all s fields types constants x os = Ok x' ->
    exists b' es', Inv x' b' es' /\ x_first x' = x_first x /\ x_last x' = x_last x /\
      b_first b' = b_first b /\ length (b_data b') = length (b_data b).
  Proof.
    intros SC NO NS. induction os as [|o os IH]; intros x b es x' I TY E; cbn [exec_all] in E.
    - apply Ok_inj in E. subst x'. exists b, es. auto.
    - dbind E y EY. destruct (exec_inv x b es o y SC NO NS I (TY o (or_introl eq_refl)) EY) as (b1 & es1 & I1 & F1 & L1 & B1 & D1).
      destruct (IH y b1 es1 x' I1 (fun o' J => TY o' (or_intror J)) E) as (b2 & es2 & I2 & F2 & L2 & B2 & D2).
      exists b2, es2. split; [exact I2|]. split; [congruence|]. split; [congruence|]. split; congruence.
  Qed.
  Lemma history_inv b first last os x : scoped s fields -> no_overlay s -> no_own_size s types -> input b first last ->
    (forall o, In o os -> typed fields types o) -> exec_all s fields types constants (initialize fields b first last) os = Ok x ->
    exists b' es, Inv x b' es /\ x_first x = first /\ x_last x = last /\ input b' first last.
  Proof.
    intros SC NO NS (WB & F1 & IP) TY E. destruct (initialize_inv s fields types constants W b first last WB F1 IP) as [I _].
    destruct (exec_all_inv os SC NO NS _ b [] x I TY E) as (b' & es & I' & F' & L' & BF & BL). exists b', es.
    split; [exact I'|]. split; [exact F'|]. split; [exact L'|]. split; [apply (i_bounds _ _ _ _ _ _ _ I')|]. split; [exact F1|].
    unfold initialize_pre, b_last in *. rewrite BF, BL. exact IP.
  Qed.
End Proofs.

(** ** C37 *)

(** After any calls of Verify the context shows fields that are in the buffer. *)
Theorem C37_verify : forall n m fields types constants b first last fs x,
  accepted n m fields types constants -> input b first last -> (forall f, In f fs -> In f fields) ->
  verify_all (structure m) fields types constants (initialize fields b first last) fs = Ok x ->
  exists es, run (structure m) types constants first last b es /\ shows fields x es.
Proof.
  intros n m fields types constants b first last fs x A IN FS V.
  destruct (verified_inv n m fields types constants A b first last fs x IN FS V) as (es & I & F & L & _).
  exists es. split; [|eapply inv_shows; eauto]. pose proof (i_run _ _ _ _ _ _ _ I) as R. now rewrite F, L in R.
Qed.

(** Verify_Message finds everything there is: the context shows the longest sequence
    of fields in the buffer. *)
Theorem C37_verify_message : forall n m fields types constants b first last x,
  accepted n m fields types constants -> input b first last -> last + 1 < Bit_Length_Last ->
  verify_message (structure m) fields types constants (initialize fields b first last) = Ok x ->
  exists es, run (structure m) types constants first last b es /\ shows fields x es /\
    forall es', run (structure m) types constants first last b es' -> exists t, es = es' ++ t.
Proof.
  intros n m fields types constants b first last x A (WB & F1 & IP) LL V.
  destruct (verify_message_inv _ fields types constants (acc_wf _ _ _ _ _ A) (acc_types _ _ _ _ _ A) (acc_det _ _ _ _ _ A) b first last x WB F1 IP LL V)
    as (es & I & F & L & MX).
  exists es. split; [|split; [eapply inv_shows; eauto|exact MX]]. pose proof (i_run _ _ _ _ _ _ _ I) as R. now rewrite F, L in R.
Qed.

(** Structural_Valid_Message after Verify_Message: exactly the complete messages are
    accepted. *)
Theorem C37_accept : forall n m fields types constants b first last x k q,
  accepted n m fields types constants -> scoped (structure m) fields -> input b first last -> last + 1 < Bit_Length_Last ->
  verify_message (structure m) fields types constants (initialize fields b first last) = Ok x ->
  structural_valid_message (structure m) fields types constants k x = Ok q ->
  (q = true <-> exists es, complete (structure m) types constants first last b es).
Proof.
  intros n m fields types constants b first last x k q A SC (WB & F1 & IP) LL V Q.
  destruct (verify_message_inv _ fields types constants (acc_wf _ _ _ _ _ A) (acc_types _ _ _ _ _ A) (acc_det _ _ _ _ _ A) b first last x WB F1 IP LL V)
    as (es & I & F & L & MX).
  rewrite (structural_valid_message_spec _ fields types constants (acc_wf _ _ _ _ _ A) (acc_types _ _ _ _ _ A) (acc_det _ _ _ _ _ A) SC x b es k q I Q).
  rewrite F, L. split; [eauto|]. intros (es' & CO). pose proof (i_run _ _ _ _ _ _ _ I) as R. rewrite F, L in R.
  destruct (MX es' (proj1 CO)) as (t & ->). destruct (complete_run _ types constants (acc_types _ _ _ _ _ A) first last (acc_det _ _ _ _ _ A) b es' _ CO R) as (t' & E).
  assert (t = []).
  { apply (f_equal (@length _)) in E. rewrite !app_length in E. destruct t; [reflexivity|cbn [List.length] in E; lia]. }
  subst t. now rewrite app_nil_r.
Qed.

(** Whatever the sequence of Verify, a message that is structurally valid is complete,
    and a message that is incomplete is not. *)
Theorem C37_sound : forall n m fields types constants b first last fs x k,
  accepted n m fields types constants -> scoped (structure m) fields -> input b first last -> (forall f, In f fs -> In f fields) ->
  verify_all (structure m) fields types constants (initialize fields b first last) fs = Ok x ->
  structural_valid_message (structure m) fields types constants k x = Ok true ->
  exists es, complete (structure m) types constants first last b es /\ shows fields x es.
Proof.
  intros n m fields types constants b first last fs x k A SC IN FS V Q.
  destruct (verified_inv n m fields types constants A b first last fs x IN FS V) as (es & I & F & L & _).
  exists es. split; [|eapply inv_shows; eauto]. rewrite <- F, <- L.
  apply (structural_valid_message_spec _ fields types constants (acc_wf _ _ _ _ _ A) (acc_types _ _ _ _ _ A) (acc_det _ _ _ _ _ A) SC x b es k true I Q). reflexivity.
Qed.
Theorem C37_incomplete : forall n m fields types constants b first last fs x,
  accepted n m fields types constants -> input b first last -> last + 1 < Bit_Length_Last -> (forall f, In f fs -> In f fields) ->
  verify_all (structure m) fields types constants (initialize fields b first last) fs = Ok x ->
  incomplete_message fields x = true -> forall es, ~ complete (structure m) types constants first last b es.
Proof.
  intros n m fields types constants b first last fs x A IN LL FS V IM.
  destruct (verified_inv n m fields types constants A b first last fs x IN FS V) as (es & I & F & L & IC).
  rewrite <- F, <- L. eapply incomplete_message_inv; eauto; try apply A. eapply acc_wf; eauto.
Qed.

(** Valid_Message holds only for messages without composite fields: Verify never
    makes those valid. *)
Theorem C37_valid_message : forall n m fields types constants b first last x k q,
  accepted n m fields types constants -> scoped (structure m) fields -> input b first last -> last + 1 < Bit_Length_Last ->
  verify_message (structure m) fields types constants (initialize fields b first last) = Ok x ->
  valid_message (structure m) fields types constants k x = Ok q ->
  (q = true <-> exists es, complete (structure m) types constants first last b es /\ forall e, In e es -> types (e_fld e) <> FComposite).
Proof.
  intros n m fields types constants b first last x k q A SC (WB & F1 & IP) LL V Q.
  pose proof (acc_wf _ _ _ _ _ A) as W. pose proof (acc_types _ _ _ _ _ A) as TS. pose proof (acc_det _ _ _ _ _ A) as DET.
  destruct (verify_message_inv _ fields types constants W TS DET b first last x WB F1 IP LL V) as (es & I & F & L & MX).
  rewrite (valid_message_spec _ fields types constants W DET SC x b es k q I Q).
  pose proof (i_run _ _ _ _ _ _ _ I) as R. rewrite F, L in *. split.
  - intros [CO VA]. exists es. split; [exact CO|]. intros e J T. specialize (VA e J).
    assert (CF : composite fields types (e_fld e) = true).
    { unfold composite. rewrite T. apply memf_iff. eapply run_in_fields; eauto. }
    assert (X : valid (x_cursors x (e_fld e)) = false).
    { eapply verify_all_composite; [exact V| |exact CF|].
      - eapply run_in_fields; eauto.
      - unfold initialize. cbn [x_cursors]. unfold upd. destruct (String.eqb _ _); reflexivity. }
    unfold valid_field in VA. rewrite X in VA. discriminate.
  - intros (es' & CO & NC). destruct (MX es' (proj1 CO)) as (t & ->).
    destruct (complete_run _ types constants TS first last DET b es' _ CO R) as (t' & E).
    assert (t = []).
    { apply (f_equal (@length _)) in E. rewrite !app_length in E. destruct t; [reflexivity|cbn [List.length] in E; lia]. }
    subst t. rewrite app_nil_r in *. split; [exact CO|]. intros e J. pose proof (NC e J) as T.
    pose proof J as J2. apply in_split in J2 as (pre & post & ES).
    destruct (i_cur _ _ _ _ _ _ _ I pre e post ES) as (_ & VV & _ & C1 & C2 & _).
    destruct (types (e_fld e)) as [size vd|] eqn:TY; [|contradiction].
    unfold valid_field. rewrite VV, C1, C2 by (unfold composite; now rewrite TY).
    pose proof (run_scalar_size _ types constants TS first last b es' e size vd R J TY). apply Z.ltb_lt. lia.
Qed.

(** The predicate of Context (Valid_Context) holds after any calls of Verify. *)
Theorem C37_predicate : forall n m fields types constants b first last fs x k q,
  accepted n m fields types constants -> scoped (structure m) fields -> no_overlay (structure m) ->
  types (first_field fields) <> FComposite -> input b first last -> (forall f, In f fs -> In f fields) ->
  verify_all (structure m) fields types constants (initialize fields b first last) fs = Ok x ->
  valid_context (structure m) fields types constants k x = Ok q -> q = true.
Proof.
  intros n m fields types constants b first last fs x k q A SC NO FC IN FS V Q.
  destruct (verified_inv n m fields types constants A b first last fs x IN FS V) as (es & I & F & L & _).
  eapply predicate; eauto; try apply A; [eapply acc_wf; eauto|].
  destruct (types (first_field fields)) as [size vd|]; [eauto|contradiction].
Qed.

(** ** C38 *)

(** After any calls of setters (whose preconditions hold) and of Verify, the context
    shows fields that are in the buffer. *)
Theorem C38_history : forall n m fields types constants b first last os x,
  accepted n m fields types constants -> scoped (structure m) fields -> no_overlay (structure m) ->
  no_own_size (structure m) types -> input b first last -> (forall o, In o os -> typed fields types o) ->
  exec_all (structure m) fields types constants (initialize fields b first last) os = Ok x ->
  exists b' es, x_buffer x = Some b' /\ run (structure m) types constants first last b' es /\ shows fields x es.
Proof.
  intros n m fields types constants b first last os x A SC NO NS IN TY E.
  destruct (history_inv n m fields types constants A b first last os x SC NO NS IN TY E) as (b' & es & I & F & L & _).
  exists b', es. split; [apply (i_bounds _ _ _ _ _ _ _ I)|]. split; [|eapply inv_shows; eauto].
  pose proof (i_run _ _ _ _ _ _ _ I) as R. now rewrite F, L in R.
Qed.
Theorem C38_predicate : forall n m fields types constants b first last os x k q,
  accepted n m fields types constants -> scoped (structure m) fields -> no_overlay (structure m) ->
  no_own_size (structure m) types -> types (first_field fields) <> FComposite -> input b first last ->
  (forall o, In o os -> typed fields types o) ->
  exec_all (structure m) fields types constants (initialize fields b first last) os = Ok x ->
  valid_context (structure m) fields types constants k x = Ok q -> q = true.
Proof.
  intros n m fields types constants b first last os x k q A SC NO NS FC IN TY E Q.
  destruct (history_inv n m fields types constants A b first last os x SC NO NS IN TY E) as (b' & es & I & F & L & _).
  eapply predicate; eauto; try apply A; [eapply acc_wf; eauto|].
  destruct (types (first_field fields)) as [size vd|]; [eauto|contradiction].
Qed.

(** A setter makes its field valid, leaves the fields before it and all bits outside
    the field as they are, and makes the fields behind it invalid. *)
Theorem C38_setter : forall n m fields types constants b first last os x o x',
  accepted n m fields types constants -> scoped (structure m) fields -> no_overlay (structure m) ->
  no_own_size (structure m) types -> input b first last -> (forall o, In o os -> typed fields types o) ->
  exec_all (structure m) fields types constants (initialize fields b first last) os = Ok x ->
  typed fields types o -> (forall f, o <> OVerify f) -> exec (structure m) fields types constants x o = Ok x' ->
  let f := op_field o in
  structural_valid (x_cursors x' f) = true /\
  get_field x' f = Ok match o with OSet _ v => v | _ => 0 end /\
  (forall g, In g (before f fields) -> x_cursors x' g = x_cursors x g) /\
  (forall g, In g (after f fields) -> structural_valid (x_cursors x' g) = false) /\
  exists b0 b1, x_buffer x = Some b0 /\ x_buffer x' = Some b1 /\ length (b_data b1) = length (b_data b0) /\
    (forall i, First_Bit_Index (b_first b0) <= i -> i < c_first (x_cursors x' f) \/ c_last (x_cursors x' f) < i ->
               bit_at b1 i = bit_at b0 i) /\
    match o with
    | OOpaque _ _ value => slice b1 (Byte_Index (c_first (x_cursors x' f))) (Byte_Index (c_last (x_cursors x' f))) = Ok value
    | OComposite _ _ => b1 = b0
    | _ => True
    end.
Proof.
  intros n m fields types constants b first last os x o x' A SC NO NS IN TYS E TY NV EX f.
  pose proof (acc_wf _ _ _ _ _ A) as W. pose proof (acc_types _ _ _ _ _ A) as TS. pose proof (acc_det _ _ _ _ _ A) as DET.
  destruct (history_inv n m fields types constants A b first last os x SC NO NS IN TYS E) as (b0 & es & I & F & L & _).
  assert (IF : In f fields) by apply TY.
  assert (X : forall v b1, set_result (structure m) fields types constants x b0 es f v x' b1 ->
    structural_valid (x_cursors x' f) = true /\ get_field x' f = Ok v /\
    (forall g, In g (before f fields) -> x_cursors x' g = x_cursors x g) /\
    (forall g, In g (after f fields) -> structural_valid (x_cursors x' g) = false) /\
    x_buffer x = Some b0 /\ x_buffer x' = Some b1 /\ length (b_data b1) = length (b_data b0)).
  { intros v b1 (pre & rest & e & ES & EF & EV & I' & F' & L' & AE & BF & BL & RT & BE).
    destruct (i_cur _ _ _ _ _ _ _ I' pre e [] eq_refl) as (V & _ & _ & _ & _ & CF & CV). rewrite EF in *.
    split; [exact V|]. split; [unfold get_field; rewrite V, CF, String.eqb_refl, CV, EV; reflexivity|]. split; [|split].
    - intros g J. assert (IG : In g fields).
      { destruct (split_at f fields IF) as [EQ _]. rewrite EQ. apply in_or_app. now left. }
      apply (BE g IG). assert (UP : (rank fields g <= rank fields f)%nat).
      { apply in_upto; [apply W|exact IF|]. apply in_or_app. now left. }
      assert (NE : rank fields g <> rank fields f).
      { intros Q. apply (rank_inj fields g f IG IF) in Q. subst g. now apply (split_at f fields IF) in J. }
      lia.
    - intros g J. assert (IG : In g fields).
      { destruct (split_at f fields IF) as [EQ _]. rewrite EQ. apply in_or_app. right. now right. }
      apply (in_after fields f g (wf_nodup _ _ W) IF) in J. apply (i_rest _ _ _ _ _ _ _ I' g IG).
      apply (run_fresh _ fields types constants W (x_first x') (x_last x') b1 _ g (i_run _ _ _ _ _ _ _ I')).
      rewrite last_fld_snoc, EF. exact J.
    - split; [apply (i_bounds _ _ _ _ _ _ _ I)|]. split; [apply (i_bounds _ _ _ _ _ _ _ I')|exact BL]. }
  destruct TY as [_ TY]. destruct o as [g|g v|st g|st g value]; cbn [op_field] in f; subst f; cbn [exec] in EX.
  - now destruct (NV g).
  - destruct TY as (size & vd & T & VR). unfold guarded in EX. dbind EX ok PRE. destruct ok; [|discriminate].
    destruct (set_scalar_inv _ fields types constants W TS DET SC NO x b0 es g size vd v x') as (b1 & SR & FR); auto.
    + intros l IL S. rewrite <- S. apply (NS l IL). rewrite S, T. discriminate.
    + destruct (X v b1 SR) as (X1 & X2 & X3 & X4 & X5 & X6 & X7). cbn [op_field] in *.
      repeat (split; [solve [auto]|]). exists b0, b1. auto.
  - destruct TY as [T ST]. unfold guarded in EX. dbind EX ok PRE. destruct ok; [|discriminate].
    pose proof (set_composite_inv _ fields types constants W DET SC NO st x b0 es g x' I IF T ST PRE EX) as SR.
    destruct (X 0 b0 SR) as (X1 & X2 & X3 & X4 & X5 & X6 & X7). cbn [op_field] in *. repeat (split; [solve [auto]|]). exists b0, b0. auto.
  - destruct TY as (T & ST & WV). unfold guarded in EX. dbind EX ok PRE. destruct ok; [|discriminate].
    destruct (set_opaque_inv _ fields types constants W DET SC NO st x b0 es g value x') as (b1 & SR & SL & FR); auto.
    destruct (X 0 b1 SR) as (X1 & X2 & X3 & X4 & X5 & X6 & X7). cbn [op_field] in *. repeat (split; [solve [auto]|]). exists b0, b1. auto.
Qed.

(** ** C39 *)

(** Whatever has been set is found again by Verify_Message in a new context over the
    same buffer: same fields, same places, same values. *)
Theorem C39_roundtrip : forall n m fields types constants b first last os x b' y f,
  accepted n m fields types constants -> scoped (structure m) fields -> no_overlay (structure m) ->
  no_own_size (structure m) types -> input b first last -> last + 1 < Bit_Length_Last ->
  (forall o, In o os -> typed fields types o) ->
  exec_all (structure m) fields types constants (initialize fields b first last) os = Ok x ->
  x_buffer x = Some b' ->
  verify_message (structure m) fields types constants (initialize fields b' first last) = Ok y ->
  In f fields -> structural_valid (x_cursors x f) = true ->
  structural_valid (x_cursors y f) = true /\ c_first (x_cursors y f) = c_first (x_cursors x f) /\
  c_last (x_cursors y f) = c_last (x_cursors x f) /\ get_field y f = get_field x f.
Proof.
  intros n m fields types constants b first last os x b' y f A SC NO NS IN LL TY E EB V IF SV.
  pose proof (acc_wf _ _ _ _ _ A) as W. pose proof (acc_types _ _ _ _ _ A) as TS. pose proof (acc_det _ _ _ _ _ A) as DET.
  destruct (history_inv n m fields types constants A b first last os x SC NO NS IN TY E) as (b1 & es & I & F & L & (WB & F1 & IP)).
  assert (b1 = b') by (destruct (i_bounds _ _ _ _ _ _ _ I) as [Q _]; congruence). subst b1.
  destruct (verify_message_inv _ fields types constants W TS DET b' first last y WB F1 IP LL V) as (es' & I' & F' & L' & MX).
  pose proof (i_run _ _ _ _ _ _ _ I) as R. rewrite F, L in R. destruct (MX es R) as (t & ->).
  destruct (inv_shows m fields types constants x b' es I) as (S1 & S2 & _). destruct (inv_shows m fields types constants y b' _ I') as (S1' & S2' & _).
  apply (S1 f IF) in SV. apply in_map_iff in SV as (e & EF & J). destruct (S2 e J) as (A1 & A2 & A3).
  destruct (S2' e) as (B1 & B2 & B3); [apply in_or_app; now left|]. rewrite EF in *.
  split; [apply (S1' f IF); rewrite map_app; apply in_or_app; left; apply in_map_iff; exists e; auto|].
  split; [congruence|]. split; congruence.
Qed.

(** A message that was serialized completely is accepted by the parser. *)
Theorem C39_message : forall n m fields types constants b first last os x b' y k k' q,
  accepted n m fields types constants -> scoped (structure m) fields -> no_overlay (structure m) ->
  no_own_size (structure m) types -> input b first last -> last + 1 < Bit_Length_Last ->
  (forall o, In o os -> typed fields types o) ->
  exec_all (structure m) fields types constants (initialize fields b first last) os = Ok x ->
  x_buffer x = Some b' -> structural_valid_message (structure m) fields types constants k x = Ok true ->
  verify_message (structure m) fields types constants (initialize fields b' first last) = Ok y ->
  structural_valid_message (structure m) fields types constants k' y = Ok q -> q = true.
Proof.
  intros n m fields types constants b first last os x b' y k k' q A SC NO NS IN LL TY E EB SV V Q.
  pose proof (acc_wf _ _ _ _ _ A) as W. pose proof (acc_types _ _ _ _ _ A) as TS. pose proof (acc_det _ _ _ _ _ A) as DET.
  destruct (history_inv n m fields types constants A b first last os x SC NO NS IN TY E) as (b1 & es & I & F & L & IN').
  assert (b1 = b') by (destruct (i_bounds _ _ _ _ _ _ _ I) as [X _]; congruence). subst b1.
  apply (C37_accept n m fields types constants b' first last y k' q A SC IN' LL V Q). exists es. rewrite <- F, <- L.
  apply (structural_valid_message_spec _ fields types constants W TS DET SC x b' es k true I SV). reflexivity.
Qed.

(** ** Cases *)

Definition lk (a b : field) (c : expr) (size first : option expr) : link := mkLink a b c size first.
Definition var_is (f : field) (z : Z) : expr := ERel OEq (EName (NVar f) false) (ENum z).
(** Tag : 1 or 3, Length : 16 bit, Value : Opaque with Size => Length * 8 *)
Definition tlv : message := mkMessage
  [ lk INITIAL "tag" ETrue None None;
    lk "tag" "length" (var_is "tag" 1) None None;
    lk "tag" FINAL (var_is "tag" 3) None None;
    lk "length" "value" ETrue (Some (EAss OMul [EName (NVar "length") false; ENum 8])) None;
    lk "value" FINAL ETrue None None ] ["tag"; "length"; "value"] [].
Definition tlv_fields : list field := ["tag"; "length"; "value"].
Definition tlv_types (f : field) : ftype :=
  if String.eqb f "tag" then FScalar 8 (fun v => (v =? 1) || (v =? 3))
  else if String.eqb f "length" then FScalar 16 (fun _ => true) else FComposite.
Definition no_constants : name -> option Z := fun _ => None.

Lemma unique_source_det s types constants :
  (forall l1 l2, In l1 s -> In l2 s -> source l1 = source l2 -> l1 = l2) -> deterministic s types constants.
Proof. intros H first last b es l1 l2 _ I1 I2 S1 S2 _ _. apply H; congruence. Qed.
Lemma var_is_holds constants first last es f z l : condition l = var_is f z -> holds constants first last es l ->
  env_of constants first last es (NVar f) = VInt z.
Proof.
  intros C H. unfold holds in H. rewrite C in H. unfold var_is in H. cbn [eval_sc] in H.
  destruct (env_of constants first last es (NVar f)) as [v|]; [|discriminate].
  destruct (Z.eqb_spec v z) as [->|N]; [reflexivity|exfalso]. cbn in H. destruct (Z.eqb_spec v z); [contradiction|discriminate].
Qed.

Ltac scope :=
  let l := fresh "l" in let e := fresh "e" in let n := fresh "n" in let I := fresh "I" in
  let IE := fresh "IE" in let J := fresh "J" in let K := fresh "K" in
  intros l e n I IE J K; cbn in I;
  repeat (destruct I as [<-|I]); try destruct I; cbn in IE;
  repeat (destruct IE as [<-|IE]); try destruct IE; cbn in J;
  repeat (destruct J as [<-|J]); try destruct J; cbn in K |- *;
  first [split; [discriminate|solve [auto]] | exfalso; repeat (destruct K as [K|K]; [discriminate K|]); destruct K].

Example C37_meets : accepted 20 tlv tlv_fields tlv_types no_constants /\ scoped (structure tlv) tlv_fields /\
  no_overlay (structure tlv) /\ no_own_size (structure tlv) tlv_types /\ tlv_types (first_field tlv_fields) <> FComposite.
Proof.
  split; [constructor|split; [|split; [|split]]].
  - reflexivity.
  - intros l I. repeat (destruct I as [<-|I]; [discriminate|]). destruct I.
  - intros f size vd. unfold tlv_types. destruct (String.eqb f "tag"); [intros E; injection E as <- <-; lia|].
    destruct (String.eqb f "length"); [intros E; injection E as <- <-; lia|discriminate].
  - intros first last b es l1 l2 _ I1 I2 S1 S2 H1 H2. rewrite <- S2 in S1.
    destruct I1 as [<-|[<-|[<-|[<-|[<-|[]]]]]]; destruct I2 as [<-|[<-|[<-|[<-|[<-|[]]]]]]; try discriminate S1; try reflexivity.
    + apply (var_is_holds _ _ _ _ "tag" 1) in H1; [|reflexivity]. apply (var_is_holds _ _ _ _ "tag" 3) in H2; [|reflexivity]. congruence.
    + apply (var_is_holds _ _ _ _ "tag" 3) in H1; [|reflexivity]. apply (var_is_holds _ _ _ _ "tag" 1) in H2; [|reflexivity]. congruence.
  - scope.
  - intros l I. repeat (destruct I as [<-|I]; [reflexivity|]). destruct I.
  - intros l I _ J. repeat (destruct I as [<-|I]; [cbn in J; decompose [or] J; try discriminate; try contradiction|]). destruct I.
  - discriminate.
Qed.
Example tlv_input : input (mkBuffer 1 [1; 0; 2; 7; 8]) 1 40.
Proof.
  split; [split; [cbn; lia|]|split; [lia|reflexivity]]. intros x I. cbn in I. decompose [or] I; subst; try lia; contradiction.
Qed.

Definition view (x : res context) : option (list (bool * Z * Z * Z) * res bool * res bool * bool * res bool) :=
  match x with
  | Ok x => Some (map (fun f => let c := x_cursors x f in (structural_valid c, c_first c, c_last c, c_value c)) tlv_fields,
                  structural_valid_message (structure tlv) tlv_fields tlv_types no_constants 10 x,
                  valid_message (structure tlv) tlv_fields tlv_types no_constants 10 x,
                  incomplete_message tlv_fields x,
                  valid_context (structure tlv) tlv_fields tlv_types no_constants 10 x)
  | Err _ => None
  end.
Definition tlv_verify (data : list Z) (last : Z) : res context :=
  verify_message (structure tlv) tlv_fields tlv_types no_constants (initialize tlv_fields (mkBuffer 1 data) 1 last).
Example C37_case : view (tlv_verify [1; 0; 2; 7; 8] 40) =
  Some ([(true, 1, 8, 1); (true, 9, 24, 2); (true, 25, 40, 0)], Ok true, Ok false, false, Ok true).
Proof. vm_compute. reflexivity. Qed.
Example C37_final_case : view (tlv_verify [3; 0; 2; 7; 8] 40) =
  Some ([(true, 1, 8, 3); (false, 0, 0, 0); (false, 0, 0, 0)], Ok true, Ok true, false, Ok true).
Proof. vm_compute. reflexivity. Qed.
Example C37_incomplete_case : view (tlv_verify [1; 0; 3; 7; 8] 40) =
  Some ([(true, 1, 8, 1); (true, 9, 24, 3); (false, 0, 0, 0)], Ok false, Ok false, true, Ok true).
Proof. vm_compute. reflexivity. Qed.
Example C37_invalid_case : view (tlv_verify [2; 0; 2; 7; 8] 40) =
  Some ([(false, 0, 0, 0); (false, 0, 0, 0); (false, 0, 0, 0)], Ok false, Ok false, false, Ok true).
Proof. vm_compute. reflexivity. Qed.

Definition tlv_ops (os : list op) : res context :=
  exec_all (structure tlv) tlv_fields tlv_types no_constants (initialize tlv_fields (mkBuffer 1 [0; 0; 0; 0; 0]) 1 40) os.
Example C38_case :
  (let* x := tlv_ops [OSet "tag" 1; OSet "length" 2; OOpaque S_Valid "value" [7; 8]] in Ok (option_map b_data (x_buffer x)))
    = Ok (Some [1; 0; 2; 7; 8]) /\
  view (tlv_ops [OSet "tag" 1; OSet "length" 2; OOpaque S_Valid "value" [7; 8]])
    = Some ([(true, 1, 8, 1); (true, 9, 24, 2); (true, 25, 40, 0)], Ok true, Ok true, false, Ok true).
Proof. split; vm_compute; reflexivity. Qed.
Example C38_reset_case :
  view (tlv_ops [OSet "tag" 1; OSet "length" 2; OComposite S_Structural_Valid "value"; OSet "length" 1])
    = Some ([(true, 1, 8, 1); (true, 9, 24, 1); (false, 0, 0, 0)], Ok false, Ok false, false, Ok true) /\
  view (tlv_ops [OSet "tag" 1; OSet "length" 2; OOpaque S_Valid "value" [7; 8]; OSet "tag" 3; OVerify "length"])
    = Some ([(true, 1, 8, 3); (false, 0, 0, 0); (false, 0, 0, 0)], Ok true, Ok true, false, Ok true).
Proof. split; vm_compute; reflexivity. Qed.
Example C38_precondition_case :
  tlv_ops [OSet "length" 2] = Err "precondition" /\ tlv_ops [OSet "tag" 2] = Err "precondition" /\
  tlv_ops [OSet "tag" 1; OSet "length" 3; OOpaque S_Valid "value" [7; 8; 9]] = Err "precondition".
Proof. repeat split; vm_compute; reflexivity. Qed.
Example C39_case : (let* x := tlv_ops [OSet "tag" 1; OSet "length" 2; OOpaque S_Valid "value" [7; 8]] in
  match x_buffer x with Some b => tlv_verify (b_data b) 40 | None => Err "" end) = tlv_verify [1; 0; 2; 7; 8] 40.
Proof. vm_compute. reflexivity. Qed.

(** ** What does not hold *)

Definition u8 (f : field) : ftype := FScalar 8 (fun _ => true).
Ltac unique_source := apply unique_source_det; intros l1 l2 I1 I2 ES; cbn in I1, I2;
  repeat (destruct I1 as [<-|I1]); try destruct I1; repeat (destruct I2 as [<-|I2]); try destruct I2;
  try discriminate ES; reflexivity.
Ltac no_final := let l := fresh in let I := fresh in intros l I; repeat (destruct I as [<-|I]; [discriminate|]); destruct I.

(** a field that is placed over an earlier one moves Message_Last back, and the
    predicate of Context no longer holds *)
Definition overlay : message := mkMessage
  [ lk INITIAL "a" ETrue None None; lk "a" "b" ETrue None None;
    lk "b" "c" ETrue None (Some (EName (NAttr AFirst "a") false)); lk "c" FINAL ETrue None None ] ["a"; "b"; "c"] [].
Theorem C37_predicate_overlay_refuted : exists n m fields types constants b first last fs x k,
  accepted n m fields types constants /\ scoped (structure m) fields /\ types (first_field fields) <> FComposite /\
  input b first last /\ (forall f, In f fs -> In f fields) /\
  verify_all (structure m) fields types constants (initialize fields b first last) fs = Ok x /\
  valid_context (structure m) fields types constants k x = Ok false.
Proof.
  exists 20%nat, overlay, ["a"; "b"; "c"], u8, no_constants, (mkBuffer 1 [5; 6]), 1, 16, ["a"; "b"; "c"]. eexists. exists 10%nat.
  split; [constructor; [reflexivity|no_final|intros f size vd E; injection E as <- <-; lia|unique_source]|].
  split.
  { scope. }
  split; [discriminate|]. split.
  { split; [split; [cbn; lia|]|split; [lia|reflexivity]]. intros x I. cbn in I. decompose [or] I; subst; try lia; contradiction. }
  split; [auto|]. split; [vm_compute; reflexivity|]. vm_compute. reflexivity.
Qed.

(** an empty first field sets Message_Last to First - 1 *)
Definition empty_first : message := mkMessage
  [ lk INITIAL "a" ETrue (Some (ENum 0)) None; lk "a" FINAL ETrue None None ] ["a"] [].
Theorem C37_predicate_empty_refuted : exists n m fields types constants b first last fs x k,
  accepted n m fields types constants /\ scoped (structure m) fields /\ no_overlay (structure m) /\
  input b first last /\ (forall f, In f fs -> In f fields) /\
  verify_all (structure m) fields types constants (initialize fields b first last) fs = Ok x /\
  valid_context (structure m) fields types constants k x = Ok false /\
  (* at the start of the type the last bit is not even a value of Bit_Index *)
  exists b', input b' 1 8 /\
    verify_all (structure m) fields types constants (initialize fields b' 1 8) fs = Err "Bit_Index range".
Proof.
  exists 20%nat, empty_first, ["a"], (fun _ => FComposite), no_constants, (mkBuffer 1 [5; 6]), 9, 16, ["a"]. eexists. exists 10%nat.
  split; [constructor; [reflexivity|no_final|discriminate|unique_source]|].
  split.
  { scope. }
  split; [intros l I; repeat (destruct I as [<-|I]; [reflexivity|]); destruct I|].
  split.
  { split; [split; [cbn; lia|]|split; [lia|reflexivity]]. intros x I. cbn in I. decompose [or] I; subst; try lia; contradiction. }
  split; [auto|]. split; [vm_compute; reflexivity|]. split; [vm_compute; reflexivity|].
  exists (mkBuffer 1 [5]). split; [|vm_compute; reflexivity].
  split; [split; [cbn; lia|]|split; [lia|reflexivity]]. intros x I. cbn in I. decompose [or] I; subst; try lia; contradiction.
Qed.

(** a condition on the first bit of the field it starts at is evaluated before the
    cursor of the field has one *)
Definition own_first : message := mkMessage
  [ lk INITIAL "a" ETrue None None;
    lk "a" FINAL (ERel OEq (EName (NAttr AFirst "a") false) (EName (NAttr AFirst "message") false)) None None ] ["a"] [].
Theorem C37_own_first_refuted : exists n m fields types constants b first last f,
  accepted n m fields types constants /\ scoped (structure m) fields /\ no_overlay (structure m) /\
  input b first last /\ In f fields /\ (exists es, complete (structure m) types constants first last b es) /\
  verify (structure m) fields types constants (initialize fields b first last) f = Err "discriminant check".
Proof.
  exists 20%nat, own_first, ["a"], u8, no_constants, (mkBuffer 1 [5]), 1, 8, "a".
  split; [constructor; [reflexivity|no_final|intros f size vd E; injection E as <- <-; lia|unique_source]|].
  split.
  { scope. }
  split; [intros l I; repeat (destruct I as [<-|I]; [reflexivity|]); destruct I|].
  split.
  { split; [split; [cbn; lia|]|split; [lia|reflexivity]]. intros x I. cbn in I. decompose [or] I; subst; try lia; contradiction. }
  split; [now left|]. split; [|vm_compute; reflexivity].
  exists [mkEntry "a" 1 8 5]. split.
  - apply (run_snoc _ _ _ _ _ _ []); [constructor|]. split; [|split].
    + exists (lk INITIAL "a" ETrue None None), 8. cbn. repeat split; auto; try lia. discriminate.
    + cbn. split; [lia|]. split; [|reflexivity]. intros k K. assert (X : k = 0 \/ k = 1 \/ k = 2 \/ k = 3 \/ k = 4 \/ k = 5 \/ k = 6 \/ k = 7) by lia.
      decompose [or] X; subst; reflexivity.
    + eexists. split; [right; left; reflexivity|]. split; reflexivity.
  - eexists. split; [right; left; reflexivity|]. repeat split.
Qed.

(** the last bits of Bit_Length: a complete message counts as incomplete *)
Definition one_field : message := mkMessage [ lk INITIAL "a" ETrue None None; lk "a" FINAL ETrue None None ] ["a"] [].
Theorem C37_edge_refuted : exists n m fields types constants b first last x k,
  accepted n m fields types constants /\ scoped (structure m) fields /\ no_overlay (structure m) /\
  input b first last /\ (exists es, complete (structure m) types constants first last b es) /\
  verify_message (structure m) fields types constants (initialize fields b first last) = Ok x /\
  structural_valid_message (structure m) fields types constants k x = Ok false /\ incomplete_message fields x = true.
Proof.
  exists 20%nat, one_field, ["a"], (fun _ => FScalar 7 (fun _ => true)), no_constants, (mkBuffer (2 ^ 31 - 1) [6]), (8 * (2 ^ 31 - 2) + 1), (8 * (2 ^ 31 - 1) - 1).
  eexists. exists 10%nat.
  split; [constructor; [reflexivity|no_final|intros f size vd E; injection E as <- <-; lia|unique_source]|].
  split.
  { scope. }
  split; [intros l I; repeat (destruct I as [<-|I]; [reflexivity|]); destruct I|].
  split.
  { split; [split; [cbn; lia|]|split; [lia|reflexivity]]. intros x I. cbn in I. decompose [or] I; subst; try lia; contradiction. }
  split; [|split; [vm_compute; reflexivity|split; vm_compute; reflexivity]].
  exists [mkEntry "a" (8 * (2 ^ 31 - 2) + 1) (8 * (2 ^ 31 - 1) - 1) 3]. split.
  - apply (run_snoc _ _ _ _ _ _ []); [constructor|]. split; [|split].
    + exists (lk INITIAL "a" ETrue None None), 7. unfold end_bit. cbn [lk source target condition lsize lfirst e_fld e_first e_last last_fld map List.last].
      split; [now left|]. repeat split; try lia. discriminate.
    + cbn [content e_fld e_val e_last]. unfold content. cbn [e_fld e_val e_last]. split; [lia|]. split; [|reflexivity].
      intros k K. assert (X : k = 0 \/ k = 1 \/ k = 2 \/ k = 3 \/ k = 4 \/ k = 5 \/ k = 6) by lia.
      decompose [or] X; subst; vm_compute; reflexivity.
    + eexists. split; [right; left; reflexivity|]. split; reflexivity.
  - eexists. split; [right; left; reflexivity|]. repeat split.
Qed.

(** A condition on the size of the scalar it starts at: the setter can never be
    called, because its precondition takes the size to be zero, although the parser
    accepts the field. *)
Definition own_size : message := mkMessage
  [ lk INITIAL "a" ETrue None None;
    lk "a" FINAL (ERel OEq (EName (NAttr ASize "a") false) (ENum 8)) None None ] ["a"] [].
Theorem C38_own_size_refuted : exists n m fields types constants b first last f,
  accepted n m fields types constants /\ scoped (structure m) fields /\ no_overlay (structure m) /\
  input b first last /\ In f fields /\
  (forall v, set_scalar_pre (structure m) fields types constants (initialize fields b first last) f v = Ok false) /\
  exists x, verify (structure m) fields types constants (initialize fields b first last) f = Ok x /\
    structural_valid_message (structure m) fields types constants 10 x = Ok true.
Proof.
  exists 20%nat, own_size, ["a"], u8, no_constants, (mkBuffer 1 [5]), 1, 8, "a".
  split; [constructor; [reflexivity|no_final|intros f size vd E; injection E as <- <-; lia|unique_source]|].
  split.
  { scope. }
  split; [intros l I; repeat (destruct I as [<-|I]; [reflexivity|]); destruct I|].
  split.
  { split; [split; [cbn; lia|]|split; [lia|reflexivity]]. intros x I. cbn in I. decompose [or] I; subst; try lia; contradiction. }
  split; [now left|]. split; [intros v; vm_compute; reflexivity|].
  eexists. split; vm_compute; reflexivity.
Qed.

Print Assumptions C37_verify.
Print Assumptions C37_verify_message.
Print Assumptions C37_accept.
Print Assumptions C37_sound.
Print Assumptions C37_incomplete.
Print Assumptions C37_valid_message.
Print Assumptions C37_predicate.
Print Assumptions C38_history.
Print Assumptions C38_predicate.
Print Assumptions C38_setter.
Print Assumptions C39_roundtrip.
Print Assumptions C39_message.
Print Assumptions C37_predicate_overlay_refuted.
Print Assumptions C37_predicate_empty_refuted.
Print Assumptions C37_own_first_refuted.
Print Assumptions C37_edge_refuted.
Print Assumptions C38_own_size_refuted.
