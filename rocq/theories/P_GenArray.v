(** C64: access to array fields of a generated message through sequences. *)
From Coq Require Import String List ZArith Bool Lia Arith.
From Verif Require Import Base Expr ExprEval MsgGraph MsgGraphFacts AdaTypes P_AdaTypes AdaBuffer AdaBufferFacts GenCode GenSpec GenFacts
  GenRun GenInv GenVerify GenMessage GenSet GenPred GenTotal P_Gen P_GenTotal GenArray GenArrayFacts GenArrayTotal.
From Verif Require ScalarSeq P_ScalarSeq.
Import ListNotations.
Local Open Scope string_scope.
Local Open Scope list_scope.
Local Open Scope Z_scope.
Local Open Scope res_scope.
Local Notation length := List.length.

(** ** Statements *)

(** A client has one context of a message and any number of variables for sequences; a
    variable holds the name of the array type and the context of a sequence. *)
Record client := mkClient { k_msg : context; k_seqs : nat -> option (string * ScalarSeq.context) }.
Definition put (m : nat -> option (string * ScalarSeq.context)) (i : nat) (v : string * ScalarSeq.context) :=
  fun j => if Nat.eqb j i then Some v else m j.

(** calls: of the message (P_Gen), Set_<Field>_Empty, Switch_To_<Field> into a variable,
    Append_Element, Next, Update_<Field> from a variable; a procedure is called only if its
    precondition holds *)
Inductive aop := AMsg (o : op) | AEmpty (f : field) | ASwitch (i : nat) (f : field) | AAppend (i : nat) (v : Z) | ANext (i : nat)
  | AUpdate (i : nat) (f : field).

Section Client.
  Context (s : list link) (fields : list field) (types : field -> ftype) (constants : name -> option Z).
  (** the array types of fields, and the instances for the types *)
  Context (arrays : field -> option string) (atypes : string -> array).

  Definition act (st : client) (o : aop) : res client :=
    match o with
    | AMsg o => let* x := exec s fields types constants (k_msg st) o in Ok (mkClient x (k_seqs st))
    | AEmpty f =>
      let* x := guarded (set_empty_pre s fields types constants (k_msg st) f)
                        (set_composite s fields types constants S_Valid (k_msg st) f) in
      Ok (mkClient x (k_seqs st))
    | ASwitch i f =>
      match arrays f with
      | None => Err "no array"
      | Some t =>
        let* ok := switch_pre s fields types constants (k_msg st) f in
        check ok msg "precondition";
        let* r := switch s fields types constants (k_msg st) f in
        Ok (mkClient (fst r) (put (k_seqs st) i (t, snd r)))
      end
    | AAppend i v =>
      match k_seqs st i with
      | None => Err "no sequence"
      | Some (t, c) => let* c' := append_element (atypes t) c v in Ok (mkClient (k_msg st) (put (k_seqs st) i (t, c')))
      end
    | ANext i =>
      match k_seqs st i with
      | None => Err "no sequence"
      | Some (t, c) => let* c' := next_element (atypes t) c in Ok (mkClient (k_msg st) (put (k_seqs st) i (t, c')))
      end
    | AUpdate i f =>
      match k_seqs st i, arrays f with
      | Some (t, c), Some t' =>
        check String.eqb t t' msg "type";
        let* ok := update_pre s fields types constants (k_msg st) f c in
        check ok msg "precondition";
        let* r := update (k_msg st) f c in
        Ok (mkClient (fst r) (put (k_seqs st) i (t, snd r)))
      | _, _ => Err "no sequence"
      end
    end.
  Fixpoint act_all (st : client) (os : list aop) : res client :=
    match os with [] => Ok st | o :: t => let* y := act st o in act_all y t end.

  (** the arguments are of the right types; the content of array fields is accessed by
      sequences only *)
  Definition atyped (o : aop) : Prop :=
    match o with
    | AMsg o => typed fields types o /\
        match o with
        | OComposite st f | OOpaque st f _ => st = S_Valid -> arrays f = None
        | _ => True
        end
    | AEmpty f | ASwitch _ f | AUpdate _ f => In f fields /\ types f = FComposite
    | AAppend _ _ | ANext _ => True
    end.
  Definition array_types : Prop :=
    (forall f t, arrays f = Some t -> types f = FComposite) /\ (forall t, 1 <= a_size (atypes t) <= 64).

  (** calls that only read *)
  Definition reads (o : aop) : Prop := match o with AMsg (OVerify _) | ASwitch _ _ | ANext _ | AUpdate _ _ => True | _ => False end.

  (** the buffer [b] is in exactly one of the contexts *)
  Definition held (st : client) (b : buffer) : Prop :=
    x_buffer (k_msg st) = Some b /\ (forall i t c, k_seqs st i = Some (t, c) -> ScalarSeq.buf c = None) \/
    x_buffer (k_msg st) = None /\
      exists i t c, k_seqs st i = Some (t, c) /\ ScalarSeq.buf c = Some b /\
        forall j t' c', k_seqs st j = Some (t', c') -> j <> i -> ScalarSeq.buf c' = None.
  Definition start (b : buffer) (first last : Z) : client := mkClient (initialize fields b first last) (fun _ => None).
End Client.

(** ** Proofs *)

Lemma valid_structural c : valid c = true -> structural_valid c = true.
Proof. unfold valid, structural_valid. destruct (c_state c); auto. Qed.

Section Keep.
  Context (s : list link) (fields : list field) (types : field -> ftype) (constants : name -> option Z).
  Local Notation run F L := (run s types constants F L).
  Local Notation composite := (composite fields types).
  Local Notation Inv := (Inv s fields types constants).
  Local Notation "x @ f" := (x_cursors x f) (at level 9, f at level 9).
  Context (W : wf s fields) (NO : no_overlay s).

  (** the field is as before *)
  Definition keeps (x : context) (b : buffer) (x' : context) (b' : buffer) (g : field) : Prop :=
    x' @ g = x @ g /\ forall i, c_first (x @ g) <= i <= c_last (x @ g) -> bit_at b' i = bit_at b i.

  Lemma set_keeps x b es f v x' b' : Inv x b es -> In f fields -> set_result s fields types constants x b es f v x' b' ->
    (forall i, First_Bit_Index (b_first b) <= i -> i < c_first (x' @ f) \/ c_last (x' @ f) < i -> bit_at b' i = bit_at b i) ->
    forall g, In g fields -> g <> f -> structural_valid (x' @ g) = true -> keeps x b x' b' g.
  Proof.
    intros I IF (pre & rest & e & ES & EF & EV & IN & F' & L' & AE & _ & _ & _ & BE) FR g IG NE SV.
    destruct (inv_covers _ _ _ _ _ _ _ IN g IG SV) as (e' & J & EG & C1 & C2 & _). apply in_app_or in J as [J|[->|[]]]; [|congruence].
    pose proof (i_run _ _ _ _ _ _ _ IN) as R. apply run_snoc_inv in R as [R (PC & _)].
    pose proof (place_rank s fields types constants W _ _ _ _ _ _ PC) as K1. pose proof (run_rank s fields types constants W _ _ _ _ e' R J) as K2.
    rewrite EF in K1. rewrite EG in K2. rewrite (BE g IG ltac:(lia)) in *. split; [apply BE; [exact IG|lia]|].
    intros i II. pose proof (run_bits s types constants NO _ _ _ _ R) as [_ RB]. destruct (RB e' J) as [Q1 Q2].
    pose proof (i_cur _ _ _ _ _ _ _ IN pre e [] eq_refl) as (_ & _ & _ & D1 & _). rewrite EF in D1.
    apply FR; [|left; rewrite F' in *; lia].
    pose proof (i_bounds _ _ _ _ _ _ _ I) as (_ & _ & _ & _ & B1 & _). unfold First_Bit_Index. pose proof (byte_index_bounds (x_first x)). rewrite F' in *. lia.
  Qed.

  Lemma verify_keeps x f x' g b : verify s fields types constants x f = Ok x' -> composite g = true -> valid (x' @ g) = true -> keeps x b x' b g.
  Proof.
    intros V CG VG. split; [|auto]. unfold verify in V. destruct (_ && _ && _) in V; [|apply Ok_inj in V; congruence].
    dbind V pc PC. destruct pc; [|apply Ok_inj in V; congruence].
    assert (U : forall y h c, valid c = false -> valid ((set_cursor y h c) @ g) = true -> (set_cursor y h c) @ g = y @ g).
    { intros y h c C Y. cbn [set_cursor x_cursors] in *. unfold upd in *. destruct (String.eqb g h); [congruence|reflexivity]. }
    dbind V sf SF. destruct sf; [|apply Ok_inj in V; subst x'; apply U; [reflexivity|exact VG]].
    dbind V v EV. dbind V z EZ. dbind V fc FC. destruct (_ && _) in V; [|apply Ok_inj in V; subst x'; apply U; [reflexivity|exact VG]].
    dbind V l EL. dbind V a EA. dbind V n SU. apply Ok_inj in V. subst x'. pose proof VG as VG'. apply U in VG'; [|reflexivity]. rewrite VG' in *. clear VG'.
    cbn [set_cursor set_message_last x_cursors] in *. unfold upd in *. destruct (String.eqb_spec g f) as [Q|]; [|reflexivity].
    subst f. rewrite CG in VG. discriminate VG.
  Qed.

  Lemma run_scalars F L b b' es : run F L b es ->
    (forall e, In e es -> types (e_fld e) <> FComposite -> forall i, e_first e <= i <= e_last e -> bit_at b' i = bit_at b i) -> run F L b' es.
  Proof.
    intros R. induction R as [|es e R IH ST]; intros H; [constructor|]. constructor.
    - apply IH. intros e' J. apply H. apply in_or_app. now left.
    - destruct ST as (P & C & LD). split; [exact P|]. split; [|exact LD].
      specialize (H e ltac:(apply in_or_app; right; now left)).
      destruct P as (l & z & IL & _ & _ & _ & _ & A & K & Z0 & B & _).
      unfold content in *. destruct (types (e_fld e)) as [size vd|]; [|exact C]. subst z.
      destruct C as (C1 & C2 & C3). split; [exact C1|]. split; [|exact C3]. intros k KK. rewrite (C2 k KK), H; [reflexivity|discriminate|lia].
  Qed.
End Keep.

Section Proofs.
  Context (n : nat) (m : message) (fields : list field) (types : field -> ftype) (constants : name -> option Z).
  Context (arrays : field -> option string) (atypes : string -> array).
  Local Notation s := (structure m).
  Context (A : accepted n m fields types constants) (SC : scoped s fields) (NO : no_overlay s) (NS : no_own_size s types)
    (AT : array_types types arrays atypes).
  Local Notation Inv := (Inv s fields types constants).
  Local Notation W := (acc_wf _ _ _ _ _ A).
  Local Notation TS := (acc_types _ _ _ _ _ A).
  Local Notation DET := (acc_det _ _ _ _ _ A).
  Local Notation composite := (composite fields types).
  Local Notation act := (act s fields types constants arrays atypes).
  Local Notation act_all := (act_all s fields types constants arrays atypes).
  Local Notation "x @ f" := (x_cursors x f) (at level 9, f at level 9).

  Lemma array_size t : 1 <= a_size (atypes t) <= 64.
  Proof. apply AT. Qed.
  Lemma array_composite f t : In f fields -> arrays f = Some t -> composite f = true.
  Proof. intros IF E. unfold GenCode.composite. rewrite (proj1 AT f t E). now apply memf_iff. Qed.

  Record K (st : client) (b : buffer) (es : list entry) : Prop := {
    k_inv : Inv (set_buffer (k_msg st) (Some b)) b es;
    k_arr : forall f t, In f fields -> arrays f = Some t -> valid ((k_msg st) @ f) = true ->
      elements (atypes t) b (c_first ((k_msg st) @ f)) (c_last ((k_msg st) @ f));
    k_held : held st b;
    k_seq : forall i t c b0, k_seqs st i = Some (t, c) -> ScalarSeq.buf c = Some b0 ->
      seq_holds c b /\ (exists e, In e es /\ arrays (e_fld e) = Some t /\ ScalarSeq.first c = e_first e /\ ScalarSeq.last c = e_last e) /\
      ScalarSeq.buffer_first c = b_first b /\ ScalarSeq.buffer_last c = b_last b /\
      (exists k, 0 <= k /\ ScalarSeq.sequence_last c = ScalarSeq.first c - 1 + k * a_size (atypes t)) /\
      (ScalarSeq.state_valid c = true -> elements (atypes t) b (ScalarSeq.first c) (ScalarSeq.sequence_last c))
  }.

  (** a call that has nothing to do with sequences *)
  Lemma msg_inv x b es o x' : Inv x b es -> typed fields types o -> exec s fields types constants x o = Ok x' ->
    exists b' es', Inv x' b' es' /\ x_first x' = x_first x /\ x_last x' = x_last x /\
      b_first b' = b_first b /\ length (b_data b') = length (b_data b) /\
      match o with OVerify _ => b' = b | _ => True end /\
      forall g, In g fields -> composite g = true -> valid (x' @ g) = true ->
        keeps x b x' b' g \/ match o with OComposite S_Valid f | OOpaque S_Valid f _ => g = f | _ => False end.
  Proof.
    intros I [IF TY] E. destruct o as [f|f v|st f|st f value]; cbn [op_field exec] in *.
    - destruct (verify_inv s fields types constants W TS DET x b es f x' I IF E) as (es' & I' & F' & L' & _). exists b, es'.
      repeat (split; [solve [auto]|]). intros g IG CG VG. left. eapply verify_keeps; eauto.
    - destruct TY as (size & vd & T & VR). unfold guarded in E. dbind E ok PRE. destruct ok; [|discriminate].
      destruct (set_scalar_inv s fields types constants W TS DET SC NO x b es f size vd v x') as (b' & SR & FR); auto.
      + intros l IL S. rewrite <- S. apply (NS l IL). rewrite S, T. discriminate.
      + pose proof SR as (pre & rest & e & _ & _ & _ & I' & F' & L' & _ & BF & BL & _). exists b', (pre ++ [e]).
        repeat (split; [solve [auto]|]). intros g IG CG VG. left.
        apply (set_keeps s fields types constants W NO x b es f v x' b'); auto.
        * intros ->. unfold GenCode.composite in CG. rewrite T in CG. discriminate.
        * apply valid_structural; assumption.
    - destruct TY as [T ST]. unfold guarded in E. dbind E ok PRE. destruct ok; [|discriminate].
      pose proof (set_composite_inv s fields types constants W DET SC NO st x b es f x' I IF T ST PRE E) as SR.
      pose proof SR as (pre & rest & e & _ & _ & _ & I' & F' & L' & _ & BF & BL & _). exists b, (pre ++ [e]).
      repeat (split; [solve [auto]|]). intros g IG CG VG. destruct (String.eqb_spec g f) as [->|NE].
      + right. destruct ST as [->| ->]; [reflexivity|]. unfold set_composite in E. dbind E a EA. dbind E l EL.
        pose proof (enter_state s fields types constants _ _ _ _ _ _ _ E ltac:(discriminate)). congruence.
      + left. apply (set_keeps s fields types constants W NO x b es f 0 x' b); auto. apply valid_structural; assumption.
    - destruct TY as (T & ST & WV). unfold guarded in E. dbind E ok PRE. destruct ok; [|discriminate].
      destruct (set_opaque_inv s fields types constants W DET SC NO st x b es f value x') as (b' & SR & _ & FR); auto.
      pose proof SR as (pre & rest & e & _ & _ & _ & I' & F' & L' & _ & BF & BL & _). exists b', (pre ++ [e]).
      repeat (split; [solve [auto]|]). intros g IG CG VG. destruct (String.eqb_spec g f) as [->|NE].
      + right. destruct ST as [->| ->]; [reflexivity|]. unfold set_opaque in E. dbind E a EA. dbind E l EL. dbind E y EY.
        unfold set_composite in EY. dbind EY a' EA'. dbind EY l' EL'.
        pose proof (enter_state s fields types constants _ _ _ _ _ _ _ EY ltac:(discriminate)) as Q.
        destruct (x_buffer y); [|discriminate]. dbind E sl SL. destruct (_ =? _) in E; [|discriminate]. apply Ok_inj in E. subst x'.
        cbn [set_buffer x_cursors] in VG. congruence.
      + left. apply (set_keeps s fields types constants W NO x b es f 0 x' b'); auto. apply valid_structural; assumption.
  Qed.
  (** nothing happens to a message without buffer *)
  Lemma no_buffer_op x o x' : x_buffer x = None -> exec s fields types constants x o = Ok x' -> x' = x.
  Proof.
    intros B E. assert (HB : has_buffer x = false) by (unfold has_buffer; now rewrite B).
    assert (PC : forall f, set_composite_pre s fields types constants x f = Ok false).
    { intros f. unfold set_composite_pre. rewrite HB. reflexivity. }
    destruct o as [f|f v|st f|st f value]; cbn [exec] in E.
    - unfold verify in E. rewrite HB in E. cbn [andb] in E. apply Ok_inj in E. auto.
    - unfold guarded, set_scalar_pre in E. rewrite HB in E. discriminate.
    - unfold guarded in E. rewrite PC in E. discriminate.
    - unfold guarded, set_opaque_pre in E. cbn [and_then] in E. rewrite PC in E. discriminate.
  Qed.

  Lemma held_none st b i t c b0 : held st b -> k_seqs st i = Some (t, c) -> ScalarSeq.buf c = Some b0 ->
    x_buffer (k_msg st) = None /\ b0 = b /\ forall j t' c', k_seqs st j = Some (t', c') -> j <> i -> ScalarSeq.buf c' = None.
  Proof.
    intros [[_ H]|(H1 & j & t' & c' & Q1 & Q2 & Q3)] E B; [rewrite (H _ _ _ E) in B; discriminate|].
    destruct (Nat.eq_dec i j) as [->|N]; [|rewrite (Q3 _ _ _ E N) in B; discriminate].
    rewrite E in Q1. injection Q1 as <- <-. split; [exact H1|]. split; [congruence|exact Q3].
  Qed.
  Lemma put_other q i v j : j <> i -> put q i v j = q j.
  Proof. intros N. unfold put. destruct (Nat.eqb_spec j i); [contradiction|reflexivity]. Qed.
  Lemma put_same q i v : put q i v i = Some v.
  Proof. unfold put. now rewrite Nat.eqb_refl. Qed.

  Definition same_size (b b' : buffer) : Prop := b_first b' = b_first b /\ length (b_data b') = length (b_data b).

  (** the message changes and has the buffer *)
  Lemma k_message st b es x' b' es' : K st b es -> x_buffer (k_msg st) = Some b -> Inv x' b' es' ->
    (forall f t, In f fields -> arrays f = Some t -> valid (x' @ f) = true -> elements (atypes t) b' (c_first (x' @ f)) (c_last (x' @ f))) ->
    K (mkClient x' (k_seqs st)) b' es'.
  Proof.
    intros [I KA KH KS] B I' KA'. pose proof (i_bounds _ _ _ _ _ _ _ I') as (B' & _).
    assert (NB : forall i t c, k_seqs st i = Some (t, c) -> ScalarSeq.buf c = None) by (destruct KH as [[_ H]|[H _]]; [exact H|congruence]).
    constructor; cbn [k_msg k_seqs].
    - now rewrite set_buffer_same.
    - exact KA'.
    - left. auto.
    - intros i t c b0 E Q. rewrite (NB _ _ _ E) in Q. discriminate.
  Qed.

  Lemma k_held_msg st b es : K st b es -> x_buffer (k_msg st) = Some b \/ x_buffer (k_msg st) = None.
  Proof. intros [_ _ [[H _]|[H _]] _]; auto. Qed.
  Lemma inv_msg st b es : K st b es -> x_buffer (k_msg st) = Some b -> Inv (k_msg st) b es.
  Proof. intros [I _ _ _] B. now rewrite set_buffer_same in I. Qed.

  Lemma kept st b es x' b' : K st b es -> x_buffer (k_msg st) = Some b -> forall f t, In f fields -> arrays f = Some t -> valid (x' @ f) = true ->
    keeps (k_msg st) b x' b' f -> elements (atypes t) b' (c_first (x' @ f)) (c_last (x' @ f)).
  Proof.
    intros KK B f t IF AF V [EQ FR]. rewrite EQ in *. apply (elements_frame _ b); [apply array_size|apply (k_arr _ _ _ KK f t IF AF V)|exact FR].
  Qed.

  Lemma update_pre_inv x f c : update_pre s fields types constants x f c = Ok true ->
    present x f = true /\ x_buffer x = None /\ (exists b, ScalarSeq.buf c = Some b) /\ ScalarSeq.state_valid c = true /\
    field_first s fields types constants x f = Ok (ScalarSeq.first c) /\ field_size s fields types constants x f = Ok (seq_size c) /\
    field_last s fields types constants x f = Ok (ScalarSeq.last c).
  Proof.
    unfold update_pre. cbn [app switch_update_conditions]. intros P.
    apply and_then_cons in P as [P1 P]. apply and_then_cons in P as [P2 P]. apply and_then_cons in P as [P3 P]. apply and_then_cons in P as [P4 P].
    apply and_then_cons in P as [_ P]. apply and_then_cons in P as [_ P]. apply and_then_cons in P as [P5 P]. apply and_then_cons in P as [P6 _].
    apply Ok_inj in P1, P3, P4. unfold complete_field in P2. dbind P2 vn VN. destruct vn; [|discriminate]. dbind P2 z EZ. apply Ok_inj in P2.
    apply andb_true_iff in P2 as [SV SZ]. apply Z.eqb_eq in SZ. dbind P5 a EA. dbind P6 l EL. apply Ok_inj in P5, P6. apply Z.eqb_eq in P5, P6.
    split; [exact P1|]. split; [unfold has_buffer in P3; destruct (x_buffer x); [discriminate|reflexivity]|].
    split; [unfold ScalarSeq.has_buffer in P4; destruct (ScalarSeq.buf c); [eauto|discriminate]|]. split; [exact SV|].
    split; [congruence|]. split; congruence.
  Qed.

  Theorem act_inv st b es o st' : K st b es -> atyped fields types arrays o -> act st o = Ok st' ->
    exists b' es', K st' b' es' /\ x_first (k_msg st') = x_first (k_msg st) /\ x_last (k_msg st') = x_last (k_msg st) /\ same_size b b' /\
      (reads o -> b' = b).
  Proof.
    intros KK TY E. destruct o as [o|f|i f|i v|i|i f]; cbn [P_GenArray.act] in E.
    - destruct TY as [TY ST]. dbind E x' EX. apply Ok_inj in E. subst st'. destruct (k_held_msg _ _ _ KK) as [B|B].
      + pose proof (inv_msg _ _ _ KK B) as I.
        destruct (msg_inv _ _ _ _ _ I TY EX) as (b' & es' & I' & F' & L' & BF & BL & BR & KP). exists b', es'.
        split; [|split; [exact F'|split; [exact L'|split; [split; assumption|intros RD; destruct o; [exact BR|contradiction RD..]]]]]. apply (k_message st b es); auto.
        intros f t IF AF V. destruct (KP f IF (array_composite f t IF AF) V) as [Q|Q]; [eapply kept; eauto|exfalso].
        destruct o as [g|g w|sg g|sg g w]; try contradiction Q; destruct sg; try contradiction Q; subst g; rewrite (ST eq_refl) in AF; discriminate.
      + apply (no_buffer_op _ _ _ B) in EX. subst x'. exists b, es. destruct st. split; [exact KK|]. split; [reflexivity|]. split; [reflexivity|split; [split; reflexivity|reflexivity]].
    - dbind E x' EX. apply Ok_inj in E. subst st'. destruct TY as [IF T]. unfold guarded in EX. dbind EX ok PRE. destruct ok; [|discriminate].
      unfold set_empty_pre in PRE. apply and_then_cons in PRE as [PRE Z0]. apply and_then_cons in Z0 as [Z0 _]. dbind Z0 z EZ. apply Ok_inj, Z.eqb_eq in Z0. subst z.
      destruct (k_held_msg _ _ _ KK) as [B|B]; [|unfold set_composite_pre, has_buffer in PRE; rewrite B in PRE; discriminate].
      pose proof (inv_msg _ _ _ KK B) as I.
      assert (EO : exec s fields types constants (k_msg st) (OComposite S_Valid f) = Ok x') by (cbn [exec]; unfold guarded; rewrite PRE; exact EX).
      destruct (msg_inv _ _ _ (OComposite S_Valid f) _ I (conj IF (conj T (or_introl eq_refl))) EO) as (b' & es' & I' & F' & L' & BF & BL & _ & KP).
      exists b', es'. split; [|split; [exact F'|split; [exact L'|split; [split; assumption|intros []]]]]. apply (k_message st b es); auto.
      intros g t IG AF V. destruct (KP g IG (array_composite g t IG AF) V) as [Q|Q]; [eapply kept; eauto|]. subst g.
      assert (CC : c_last (x' @ f) = c_first (x' @ f) - 1); [|rewrite CC; apply elements_nil].
      unfold set_composite in EX. dbind EX a EA. dbind EX l EL. destruct (field_last_inv _ _ _ _ _ _ _ EL) as (a1 & z1 & A1 & A2 & LE).
      assert (a1 = a) by congruence. assert (z1 = 0) by congruence. subst a1 z1.
      unfold enter_field in EX. cbn zeta in EX. dbind EX k SU. apply Ok_inj in EX. subst x'.
      cbn [set_cursor set_message_last x_cursors] in *. unfold upd in *. destruct (String.eqb f k); [discriminate V|]. rewrite String.eqb_refl in *. cbn [c_first c_last]. lia.
    - destruct (arrays f) as [t|] eqn:AF; [|discriminate]. destruct TY as [IF T]. dbind E ok PRE. destruct ok; [|discriminate].
      dbind E r ER. apply Ok_inj in E. subst st'. destruct r as [x' c]. cbn [fst snd] in *.
      assert (B : x_buffer (k_msg st) = Some b).
      { destruct (k_held_msg _ _ _ KK) as [B|B]; [exact B|]. destruct (switch_pre_inv _ _ _ _ _ _ PRE) as (HB & _). unfold has_buffer in HB. rewrite B in HB. discriminate. }
      pose proof (inv_msg _ _ _ KK B) as I.
      destruct (switch_inv s fields types constants W DET SC NO _ _ _ _ _ _ I IF T PRE ER) as (es' & e & J & EF & I' & NB & F' & L' & LE & A8 & CV & CI & H & SV & C1 & C2 & C3 & C4 & C5).
      assert (OTHER : forall j t' c', k_seqs st j = Some (t', c') -> ScalarSeq.buf c' = None).
      { destruct (k_held _ _ _ KK) as [[_ Q]|[Q _]]; [exact Q|congruence]. }
      exists b, es'. split; [|split; [exact F'|split; [exact L'|split; [split; reflexivity|reflexivity]]]]. constructor; cbn [k_msg k_seqs].
      + exact I'.
      + intros g t' IG AG V. destruct (structural_valid ((k_msg st) @ f)) eqn:SVF.
        * destruct (CV eq_refl) as [_ ->]. cbn [set_buffer x_cursors] in *. exact (k_arr _ _ _ KK g t' IG AG V).
        * destruct (CI eq_refl) as (pre & EP & (rest & ES) & VF & BE).
          assert (NE : g <> f) by (intros ->; congruence).
          assert (SVG : structural_valid (x' @ g) = true) by (apply valid_structural; assumption).
          assert (RK : (rank fields g < rank fields f)%nat).
          { destruct (inv_covers _ _ _ _ _ _ _ I' g IG SVG) as (e' & J' & EG & _). rewrite EP in J', I'. apply in_app_or in J' as [J'|[->|[]]]; [|congruence].
            pose proof (i_run _ _ _ _ _ _ _ I') as R. apply run_snoc_inv in R as [R (PC & _)].
            pose proof (place_rank s fields types constants W _ _ _ _ _ _ PC). pose proof (run_rank s fields types constants W _ _ _ _ e' R J').
            rewrite EF in *. rewrite EG in *. lia. }
          rewrite (BE g IG RK) in *. exact (k_arr _ _ _ KK g t' IG AG V).
      + unfold held. cbn [k_msg k_seqs]. right. split; [exact NB|]. exists i, t, c. split; [apply put_same|]. split; [apply H|]. intros j t' c' Q N. rewrite put_other in Q by exact N. eauto.
      + intros j t' c' b0 Q QB. destruct (Nat.eq_dec j i) as [->|N].
        * rewrite put_same in Q. injection Q as <- <-. split; [exact H|]. split; [exists e; rewrite EF; auto|]. split; [exact C4|]. split; [exact C5|].
          split; [exists 0; split; lia|]. intros _. rewrite C1, C3. apply elements_nil.
        * rewrite put_other in Q by exact N. rewrite (OTHER _ _ _ Q) in QB. discriminate.
    - destruct (k_seqs st i) as [[t c]|] eqn:Q; [|discriminate]. dbind E c' EC. apply Ok_inj in E. subst st'.
      assert (BC : exists b0, ScalarSeq.buf c = Some b0).
      { unfold append_element, ScalarSeq.append_element in EC. destruct (ScalarSeq.buf c); [eauto|discriminate]. }
      destruct BC as (b0 & BC). destruct (held_none _ _ _ _ _ _ (k_held _ _ _ KK) Q BC) as (NB & -> & OTHER).
      destruct (k_seq _ _ _ KK i t c b Q BC) as (H & (e & J & AE & C1 & C2) & C3 & C4 & (k & K0 & CK) & EL).
      assert (PRE : ScalarSeq.state_valid c = true /\ a_valid (atypes t) (to_base (atypes t) v) = true /\ a_size (atypes t) <= ScalarSeq.last c - ScalarSeq.sequence_last c).
      { unfold append_element, ScalarSeq.append_element in EC. rewrite BC in EC. destruct (_ && _) eqn:G in EC; [|discriminate].
        apply andb_true_iff in G as [G G3]. apply andb_true_iff in G as [G1 G2]. apply Z.leb_le in G3. auto. }
      destruct PRE as (P1 & P2 & P3).
      destruct (append_step (atypes t) (array_size t) c b v H P1 P2 P3) as (b' & c1 & EC' & H' & SV' & BF & BL & SL & F1 & L1 & BF1 & BL1 & BITS & FR).
      assert (c1 = c') by (unfold append_element in EC; congruence). subst c1.
      pose proof (k_inv _ _ _ KK) as I. pose proof (i_run _ _ _ _ _ _ _ I) as R. pose proof (EL P1) as EL1.
      pose proof (array_size t) as AS. pose proof (to_base_range (atypes t) v AS) as VR.
      assert (TE : types (e_fld e) = FComposite) by apply (proj1 AT _ _ AE).
      pose proof (run_in_fields s fields types constants W _ _ _ _ _ R J) as IE.
      assert (LOW : forall e', In e' es -> First_Bit_Index (b_first b) <= e_first e').
      { intros e' J'. destruct (run_bits s types constants NO _ _ _ _ R) as [_ RB]. destruct (RB e' J') as [Q1 _].
        pose proof (i_bounds _ _ _ _ _ _ _ I) as (_ & _ & _ & _ & B1 & _). cbn [set_buffer x_first] in B1, Q1. unfold First_Bit_Index. pose proof (byte_index_bounds (x_first (k_msg st))). lia. }
      assert (OUT : forall e', In e' es -> e_fld e' <> e_fld e -> forall i, e_first e' <= i <= e_last e' -> bit_at b' i = bit_at b i).
      { intros e' J' NE i' II. apply FR; [pose proof (LOW e' J'); lia|].
        destruct (disjoint s types constants NO _ _ _ _ e' e R J' J NE) as [D|D]; [left|right]; nia. }
      assert (R' : run s types constants (x_first (k_msg st)) (x_last (k_msg st)) b' es).
      { apply (run_scalars s types constants _ _ b); [exact R|]. intros e' J' NC i' II. apply (OUT e' J'); [|exact II]. intros EQ. apply NC. now rewrite EQ. }
      exists b', es. split; [|split; [reflexivity|split; [reflexivity|split; [split; assumption|intros []]]]]. constructor; cbn [k_msg k_seqs].
      + apply (inv_buffer s fields types constants _ b); auto. apply H'.
      + intros g t' IG AG V. pose proof (k_arr _ _ _ KK g t' IG AG V) as ELG.
        assert (SVG : structural_valid ((k_msg st) @ g) = true) by (apply valid_structural; assumption).
        destruct (inv_covers _ _ _ _ _ _ _ I g IG SVG) as (e' & J' & EG & D1 & D2 & _). cbn [set_buffer x_cursors] in D1, D2. rewrite D1, D2 in *.
        destruct (String.eqb_spec g (e_fld e)) as [EQ|NE].
        * assert (e' = e).
          { pose proof (run_find s fields types constants W _ _ _ _ e R J) as Q1. pose proof (run_find s fields types constants W _ _ _ _ e' R J') as Q2.
            rewrite EG, EQ in Q2. congruence. }
          subst e'. assert (t' = t) by congruence. subst t'.
          rewrite C1 in EL1. apply (elements_write (atypes t) b b' _ _ (ScalarSeq.sequence_last c) (to_base (atypes t) v)); auto; [apply AS|lia|].
          intros i' II. apply FR. pose proof (LOW e J). lia.
        * apply (elements_frame _ b); [apply array_size|exact ELG|]. apply (OUT e' J'). congruence.
      + unfold held. cbn [k_msg k_seqs]. right. split; [exact NB|]. exists i, t, c'. split; [apply put_same|]. split; [apply H'|]. intros j t' c2 Q' N. rewrite put_other in Q' by exact N. eauto.
      + intros j t' c2 b0 Q' QB. destruct (Nat.eq_dec j i) as [->|N]; [|rewrite put_other in Q' by exact N; rewrite (OTHER _ _ _ Q' N) in QB; discriminate].
        rewrite put_same in Q'. injection Q' as <- <-. split; [exact H'|]. split; [exists e; rewrite F1, L1; auto|].
        assert (b_last b' = b_last b) by (unfold b_last; now rewrite BF, BL).
        split; [congruence|]. split; [congruence|]. split; [exists (k + 1); rewrite F1; split; lia|]. intros _. rewrite F1, SL.
        apply (elements_snoc _ _ _ _ (to_base (atypes t) v)); auto; [|intros q QQ; symmetry; now apply BITS].
        apply (elements_frame _ b); [apply AS|exact EL1|]. intros i' II. apply FR; [pose proof (LOW e J); lia|left; lia].
    - destruct (k_seqs st i) as [[t c]|] eqn:Q; [|discriminate]. dbind E c' EC. apply Ok_inj in E. subst st'.
      unfold next_element in EC.
      assert (PRE : ScalarSeq.has_buffer c = true /\ ScalarSeq.has_element (a_size (atypes t)) c = true).
      { unfold ScalarSeq.next in EC. destruct (_ && _) eqn:G in EC; [|discriminate]. now apply andb_true_iff in G. }
      destruct PRE as (HB & HE). assert (BC : exists b0, ScalarSeq.buf c = Some b0) by (unfold ScalarSeq.has_buffer in HB; destruct (ScalarSeq.buf c); [eauto|discriminate]).
      destruct BC as (b0 & BC). destruct (held_none _ _ _ _ _ _ (k_held _ _ _ KK) Q BC) as (NB & -> & OTHER).
      destruct (k_seq _ _ _ KK i t c b Q BC) as (H & (e & J & AE & C1 & C2) & C3 & C4 & (k & K0 & CK) & EL).
      destruct (next_step (atypes t) (array_size t) c b H HE) as (v & c1 & EC' & VR & VB & H' & NE & SV' & SL & F1 & L1).
      assert (c1 = c') by congruence. subst c1.
      assert (SVC : ScalarSeq.state_valid c = true) by (unfold ScalarSeq.has_element in HE; now apply andb_true_iff in HE).
      exists b, es. split; [|split; [reflexivity|split; [reflexivity|split; [split; reflexivity|reflexivity]]]]. constructor; cbn [k_msg k_seqs].
      + apply (k_inv _ _ _ KK).
      + apply (k_arr _ _ _ KK).
      + unfold held. cbn [k_msg k_seqs]. right. split; [exact NB|]. exists i, t, c'. split; [apply put_same|]. split; [apply H'|]. intros j t' c2 Q' N. rewrite put_other in Q' by exact N. eauto.
      + intros j t' c2 b0 Q' QB. destruct (Nat.eq_dec j i) as [->|N]; [|rewrite put_other in Q' by exact N; rewrite (OTHER _ _ _ Q' N) in QB; discriminate].
        rewrite put_same in Q'. injection Q' as <- <-. split; [exact H'|]. split; [exists e; rewrite F1, L1; auto|].
        destruct H' as (P' & B' & _). apply seq_pred_iff in P'. rewrite B' in P'. destruct P' as ((P1 & P2) & _).
        split; [congruence|]. split; [congruence|]. split; [exists (k + 1); rewrite F1; split; lia|]. intros VV. rewrite F1, SL. rewrite SV' in VV.
        apply (elements_snoc _ _ _ _ v); auto.
    - destruct TY as [IF T]. destruct (k_seqs st i) as [[t c]|] eqn:Q; [|discriminate]. destruct (arrays f) as [t'|] eqn:AF; [|discriminate].
      destruct (String.eqb_spec t t') as [<-|]; [|discriminate]. dbind E ok PRE. destruct ok; [|discriminate]. dbind E r ER. apply Ok_inj in E. subst st'.
      destruct (update_pre_inv _ _ _ PRE) as (PR & NB & (b0 & BC) & SV & EA & EZ & EL).
      destruct (held_none _ _ _ _ _ _ (k_held _ _ _ KK) Q BC) as (_ & -> & OTHER).
      destruct (k_seq _ _ _ KK i t c b Q BC) as (H & (e & J & AE & C1 & C2) & C3 & C4 & _ & EL1). specialize (EL1 SV).
      destruct (seq_take c b H) as (c' & EC & NC). unfold update in ER. rewrite EC, SV in ER. cbn [bind fst snd] in ER.
      unfold present in PR. apply andb_true_iff in PR as [SVF _]. change (x_cursors (set_buffer (k_msg st) (Some b)) f) with ((k_msg st) @ f) in ER.
      rewrite SVF in ER. apply Ok_inj in ER. subst r. cbn [fst snd]. pose proof (k_inv _ _ _ KK) as I.
      exists b, es. split; [|split; [reflexivity|split; [reflexivity|split; [split; reflexivity|reflexivity]]]]. constructor; cbn [k_msg k_seqs].
      + rewrite set_buffer_same by reflexivity. apply (inv_valid s fields types constants (set_buffer (k_msg st) (Some b)) b es f I (array_composite f t IF AF) SVF).
      + intros g t' IG AG V. cbn [set_cursor set_buffer x_cursors] in *. unfold upd in *. destruct (String.eqb_spec g f) as [->|NE]; [|apply (k_arr _ _ _ KK g t' IG AG V)].
        assert (t' = t) by congruence. subst t'. cbn [c_first c_last].
        destruct (inv_covers _ _ _ _ _ _ _ I f IF SVF) as (e' & J' & EG & D1 & D2 & _). cbn [set_buffer x_cursors] in D1, D2. rewrite D1, D2.
        apply in_split in J' as (pre & post & ES). destruct (entry_computed s fields types constants W DET SC NO _ b es pre e' post I ES) as [CA CZ].
        rewrite EG in CA, CZ. pose proof (CA _ EA) as QA. pose proof (CZ _ EZ) as QZ. unfold seq_size in QZ.
        rewrite QA in EL1. replace (e_last e') with (ScalarSeq.sequence_last c) by lia. exact EL1.
      + unfold held. cbn [k_msg k_seqs]. left. split; [reflexivity|]. intros j t' c2 Q'. destruct (Nat.eq_dec j i) as [->|N]; [rewrite put_same in Q'; injection Q' as <- <-; exact NC|].
        rewrite put_other in Q' by exact N. eauto.
      + intros j t' c2 b0 Q' QB. exfalso. destruct (Nat.eq_dec j i) as [->|N]; [rewrite put_same in Q'; injection Q' as <- <-; congruence|].
        rewrite put_other in Q' by exact N. rewrite (OTHER _ _ _ Q' N) in QB. discriminate.
  Qed.
End Proofs.

Section More.
  Context (n : nat) (m : message) (fields : list field) (types : field -> ftype) (constants : name -> option Z).
  Context (arrays : field -> option string) (atypes : string -> array).
  Local Notation s := (structure m).
  Context (A : accepted n m fields types constants) (SC : scoped s fields) (NO : no_overlay s) (NS : no_own_size s types)
    (AT : array_types types arrays atypes).
  Local Notation Inv := (Inv s fields types constants).
  Local Notation K := (K m fields types constants arrays atypes).
  Local Notation W := (acc_wf _ _ _ _ _ A).
  Local Notation TS := (acc_types _ _ _ _ _ A).
  Local Notation DET := (acc_det _ _ _ _ _ A).
  Local Notation act := (act s fields types constants arrays atypes).
  Local Notation act_all := (act_all s fields types constants arrays atypes).
  Local Notation atyped := (atyped fields types arrays).
  Local Notation "x @ f" := (x_cursors x f) (at level 9, f at level 9).

  Lemma act_all_inv os : forall st b es st', K st b es -> (forall o, In o os -> atyped o) -> act_all st os = Ok st' ->
    exists b' es', K st' b' es' /\ x_first (k_msg st') = x_first (k_msg st) /\ x_last (k_msg st') = x_last (k_msg st) /\
      same_size b b' /\ ((forall o, In o os -> reads o) -> b' = b).
  Proof.
    induction os as [|o os IH]; intros st b es st' KK TY E; cbn [P_GenArray.act_all] in E.
    - apply Ok_inj in E. subst st'. exists b, es. split; [exact KK|]. split; [reflexivity|]. split; [reflexivity|]. split; [split; reflexivity|auto].
    - dbind E st1 E1.
      destruct (act_inv n m fields types constants arrays atypes A SC NO NS AT st b es o st1 KK (TY o (or_introl eq_refl)) E1) as (b1 & es1 & K1 & F1 & L1 & (Q1 & Q2) & RD1).
      destruct (IH st1 b1 es1 st' K1 (fun o' J => TY o' (or_intror J)) E) as (b2 & es2 & K2 & F2 & L2 & (Q3 & Q4) & RD2).
      exists b2, es2. split; [exact K2|]. split; [congruence|]. split; [congruence|]. split; [split; congruence|].
      intros RD. rewrite (RD2 (fun o' J => RD o' (or_intror J))). apply RD1, RD. now left.
  Qed.
  Lemma start_k b first last : input b first last -> K (start fields b first last) b [].
  Proof.
    intros (WB & F1 & IP). destruct (initialize_inv s fields types constants W b first last WB F1 IP) as [I _].
    constructor; cbn [start k_msg k_seqs].
    - exact I.
    - intros f t IF AF V. exfalso. unfold initialize in V. cbn [x_cursors] in V. unfold upd in V. destruct (String.eqb _ _) in V; discriminate V.
    - left. split; [reflexivity|]. discriminate.
    - discriminate.
  Qed.
  Lemma history_k b first last os st : input b first last -> (forall o, In o os -> atyped o) ->
    act_all (start fields b first last) os = Ok st ->
    exists b' es, K st b' es /\ x_first (k_msg st) = first /\ x_last (k_msg st) = last /\ input b' first last /\
      ((forall o, In o os -> reads o) -> b' = b).
  Proof.
    intros IN TY E. destruct (act_all_inv os _ b [] st (start_k b first last IN) TY E) as (b' & es & KK & F & L & (BF & BL) & RD).
    exists b', es. split; [exact KK|]. split; [exact F|]. split; [exact L|]. split; [|exact RD].
    destruct IN as (WB & F1 & IP). split; [apply (i_bounds _ _ _ _ _ _ _ (k_inv _ _ _ _ _ _ _ _ _ KK))|]. split; [exact F1|].
    unfold initialize_pre, b_last in *. rewrite BF, BL. exact IP.
  Qed.

  Context (P : proper m fields types constants) (NL : no_own s ALast).
  Local Notation FS := (scalar_first _ _ _ _ P).
  Local Notation VIS := (pr_visible _ _ _ _ P).
  Local Notation CMP := (pr_computable _ _ _ _ P).
  Local Notation NF := (pr_own_first _ _ _ _ P).

  (** what a procedure that may not be called is answered with *)
  Definition refused : list string :=
    ["precondition"; "no array"; "no sequence"; "type"; "Append_Element precondition"; "Next precondition"].

  Lemma update_pre_total x b es f c : Inv (set_buffer x (Some b)) b es -> In f fields -> types f = FComposite ->
    exists q, update_pre s fields types constants x f c = Ok q.
  Proof.
    intros I IF T. unfold update_pre. cbn [app and_then bind]. destruct (present x f) eqn:PR; [|eauto].
    unfold present in PR. apply andb_true_iff in PR as [SV _].
    destruct (inv_covers _ _ _ _ _ _ _ I f IF SV) as (e & J & EF & _). apply in_split in J as (pre & post & ES).
    assert (TE : types (e_fld e) = FComposite) by now rewrite EF.
    destruct (entry_total s fields types constants W TS DET SC NO FS VIS CMP NF _ b es pre e post I ES TE) as (VN & EA & EZ & EL & _).
    rewrite EF in VN, EA, EZ, EL.
    change (valid_next s fields types constants x f = Ok true) in VN.
    change (field_first s fields types constants x f = Ok (e_first e)) in EA.
    change (field_size s fields types constants x f = Ok (e_last e - e_first e + 1)) in EZ.
    change (field_last s fields types constants x f = Ok (e_last e)) in EL.
    unfold complete_field. rewrite VN, EZ. cbn [bind]. destruct (_ && _); [|eauto].
    apply and_then_total. unfold switch_update_conditions. rewrite EA, EL. cbn [bind]. intros r J.
    destruct J as [<-|[<-|[<-|[<-|[<-|[<-|[]]]]]]]; eauto.
  Qed.

  Lemma act_ok st b es o : K st b es -> atyped o -> (exists st', act st o = Ok st') \/ exists e, act st o = Err e /\ In e refused.
  Proof.
    intros KK TY. destruct o as [o|f|i f|i v|i|i f]; cbn [P_GenArray.act].
    - destruct TY as [TY ST]. destruct (k_held_msg _ _ _ _ _ _ _ _ _ KK) as [B|B].
      + destruct (exec_ok n m fields types constants A P _ b es o SC NS NL (inv_msg _ _ _ _ _ _ _ _ _ KK B) TY) as [(x & E)|E]; rewrite E; cbn [bind]; [left; eauto|].
        right. exists "precondition". split; [reflexivity|now left].
      + assert (HB : has_buffer (k_msg st) = false) by (unfold has_buffer; now rewrite B).
        assert (PC : forall f, set_composite_pre s fields types constants (k_msg st) f = Ok false) by (intros f; unfold set_composite_pre; rewrite HB; reflexivity).
        destruct o as [f|f v|cs f|cs f value]; cbn [exec].
        * unfold verify. rewrite HB. cbn [andb bind]. left. eauto.
        * right. exists "precondition". unfold guarded, set_scalar_pre. rewrite HB. split; [reflexivity|now left].
        * right. exists "precondition". unfold guarded. rewrite PC. split; [reflexivity|now left].
        * right. exists "precondition". unfold guarded, set_opaque_pre. cbn [and_then]. rewrite PC. split; [reflexivity|now left].
    - destruct TY as [IF T]. unfold guarded, set_empty_pre. cbn [and_then]. destruct (k_held_msg _ _ _ _ _ _ _ _ _ KK) as [B|B].
      + pose proof (inv_msg _ _ _ _ _ _ _ _ _ KK B) as I.
        destruct (set_composite_pre_total s fields types constants W TS DET NO FS VIS CMP NF NL _ b es f I IF T) as (q & E & Q). rewrite E. cbn [bind].
        destruct (set_composite_total s fields types constants W TS DET NO FS VIS CMP NF NL S_Valid _ b es f I IF T (or_introl eq_refl)) as (q' & E' & Q').
        assert (q' = q) by congruence. subst q'. destruct q; [|right; exists "precondition"; split; [reflexivity|now left]].
        destruct (Q eq_refl) as (pre & rest & l & z & _ & _ & _ & _ & _ & _ & _ & _ & _ & _ & EZ & _). rewrite EZ. cbn [bind].
        destruct (z =? 0); cbn [bind]; [|right; exists "precondition"; split; [reflexivity|now left]].
        destruct (Q' eq_refl) as (x' & ->). cbn [bind]. left. eauto.
      + right. exists "precondition". unfold set_composite_pre, has_buffer. rewrite B. split; [reflexivity|now left].
    - destruct (arrays f) as [t|] eqn:AF; [|right; exists "no array"; split; [reflexivity|cbn; auto]]. destruct TY as [IF T].
      destruct (k_held_msg _ _ _ _ _ _ _ _ _ KK) as [B|B].
      + pose proof (inv_msg _ _ _ _ _ _ _ _ _ KK B) as I.
        destruct (switch_total s fields types constants W TS DET NO FS VIS CMP NF NL _ b es f I IF T) as (q & E & Q). rewrite E. cbn [bind].
        destruct q; [|right; exists "precondition"; split; [reflexivity|now left]]. destruct (Q eq_refl) as (r & ->). cbn [bind]. left. eauto.
      + right. exists "precondition". unfold switch_pre, has_buffer. rewrite B. split; [reflexivity|now left].
    - destruct (k_seqs st i) as [[t c]|] eqn:Q; [|right; exists "no sequence"; split; [reflexivity|cbn; auto]].
      unfold append_element. destruct (ScalarSeq.buf c) as [b0|] eqn:BC.
      + destruct (held_none _ _ _ _ _ _ (k_held _ _ _ _ _ _ _ _ _ KK) Q BC) as (_ & -> & _).
        destruct (k_seq _ _ _ _ _ _ _ _ _ KK i t c b Q BC) as (H & _).
        destruct (ScalarSeq.state_valid c && a_valid (atypes t) (to_base (atypes t) v) && (a_size (atypes t) <=? ScalarSeq.available_space c)) eqn:G.
        * apply andb_true_iff in G as [G G3]. apply andb_true_iff in G as [G1 G2]. apply Z.leb_le in G3.
          destruct (append_step (atypes t) (proj2 AT t) c b v H G1 G2 G3) as (b' & c1 & EC & _). rewrite EC. left. eexists. reflexivity.
        * right. exists "Append_Element precondition". unfold ScalarSeq.append_element. rewrite BC, G. split; [reflexivity|cbn; auto 8].
      + right. exists "Append_Element precondition". unfold ScalarSeq.append_element. rewrite BC. split; [reflexivity|cbn; auto 8].
    - destruct (k_seqs st i) as [[t c]|] eqn:Q; [|right; exists "no sequence"; split; [reflexivity|cbn; auto]].
      unfold next_element. destruct (ScalarSeq.has_buffer c && ScalarSeq.has_element (a_size (atypes t)) c) eqn:G.
      + apply andb_true_iff in G as [HB HE].
        assert (BC : exists b0, ScalarSeq.buf c = Some b0) by (unfold ScalarSeq.has_buffer in HB; destruct (ScalarSeq.buf c); [eauto|discriminate]).
        destruct BC as (b0 & BC). destruct (held_none _ _ _ _ _ _ (k_held _ _ _ _ _ _ _ _ _ KK) Q BC) as (_ & -> & _).
        destruct (k_seq _ _ _ _ _ _ _ _ _ KK i t c b Q BC) as (H & _).
        destruct (next_step (atypes t) (proj2 AT t) c b H HE) as (v & c1 & EC & _). rewrite EC. left. eexists. reflexivity.
      + right. exists "Next precondition". unfold ScalarSeq.next. rewrite G. split; [reflexivity|cbn; auto 8].
    - destruct TY as [IF T].
      destruct (k_seqs st i) as [[t c]|] eqn:Q; [|right; exists "no sequence"; split; [reflexivity|cbn; auto]].
      destruct (arrays f) as [t'|] eqn:AF; [|right; exists "no sequence"; split; [reflexivity|cbn; auto]].
      destruct (String.eqb_spec t t') as [<-|]; [|right; exists "type"; split; [reflexivity|cbn; auto]].
      destruct (update_pre_total (k_msg st) b es f c (k_inv _ _ _ _ _ _ _ _ _ KK) IF T) as (q & E). rewrite E. cbn [bind].
      destruct q; [|right; exists "precondition"; split; [reflexivity|now left]].
      destruct (update_pre_inv m fields types constants _ _ _ E) as (PR & _ & (b0 & BC) & SV & _).
      destruct (held_none _ _ _ _ _ _ (k_held _ _ _ _ _ _ _ _ _ KK) Q BC) as (_ & -> & _).
      destruct (k_seq _ _ _ _ _ _ _ _ _ KK i t c b Q BC) as (H & _).
      destruct (seq_take c b H) as (c' & EC & _). unfold update. rewrite EC, SV. cbn [bind fst snd].
      unfold present in PR. apply andb_true_iff in PR as [SVF _]. change (x_cursors (set_buffer (k_msg st) (Some b)) f) with ((k_msg st) @ f).
      rewrite SVF. left. eexists. reflexivity.
  Qed.
  Lemma act_all_ok os : forall st b es, K st b es -> (forall o, In o os -> atyped o) ->
    (exists st', act_all st os = Ok st') \/ exists e, act_all st os = Err e /\ In e refused.
  Proof.
    induction os as [|o os IH]; intros st b es KK TY; cbn [P_GenArray.act_all]; [eauto|].
    destruct (act_ok st b es o KK (TY o (or_introl eq_refl))) as [(st1 & E)|(e & E & J)]; rewrite E; cbn [bind]; [|right; eauto].
    destruct (act_inv n m fields types constants arrays atypes A SC NO NS AT st b es o st1 KK (TY o (or_introl eq_refl)) E) as (b1 & es1 & K1 & _).
    apply (IH st1 b1 es1 K1). intros o' J. apply TY. now right.
  Qed.

  (** *** Writing *)
  Lemma append_act i t vs : forall st c c', k_seqs st i = Some (t, c) ->
    ScalarSeq.append_all index_last Z (a_size (atypes t)) (a_valid (atypes t)) (to_base (atypes t)) c vs = Ok c' ->
    exists q, act_all st (map (AAppend i) vs) = Ok (mkClient (k_msg st) q) /\ q i = Some (t, c') /\ forall j, j <> i -> q j = k_seqs st j.
  Proof.
    induction vs as [|v vs IH]; intros st c c' Q E; cbn [ScalarSeq.append_all map P_GenArray.act_all P_GenArray.act] in *.
    - apply Ok_inj in E. subst c'. exists (k_seqs st). destruct st. auto.
    - rewrite Q. dbind E c1 E1. unfold append_element. rewrite E1. cbn [bind].
      destruct (IH (mkClient (k_msg st) (put (k_seqs st) i (t, c1))) c1 c' ltac:(apply put_same) E) as (q & A1 & A2 & A3).
      exists q. split; [exact A1|]. split; [exact A2|]. intros j N. rewrite (A3 j N). now apply put_other.
  Qed.
  Lemma act_all_app os os' : forall st st', act_all st os = Ok st' -> act_all st (os ++ os') = act_all st' os'.
  Proof.
    induction os as [|o os IH]; intros st st' E; cbn [P_GenArray.act_all app] in *; [apply Ok_inj in E; now subst|].
    dbind E st1 E1. rewrite E1. cbn [bind]. now apply IH.
  Qed.
  (** the end of an access: the sequence fills the field *)
  Lemma update_act i f t c x b b' es e q : Inv (set_buffer x (Some b)) b es -> In e es -> e_fld e = f -> arrays f = Some t -> x_buffer x = None ->
    q i = Some (t, c) -> seq_holds c b' -> ScalarSeq.buffer_first c = b_first b -> ScalarSeq.buffer_last c = b_last b ->
    ScalarSeq.first c = e_first e -> ScalarSeq.last c = e_last e -> e_first e <= e_last e ->
    ScalarSeq.state_valid c = true -> ScalarSeq.sequence_last c = e_last e ->
    exists q', act_all (mkClient x q) [AUpdate i f] =
      Ok (mkClient (set_cursor (set_buffer x (Some b')) f
            (mkCursor S_Valid (c_pred (x @ f)) (c_first (x @ f)) (c_last (x @ f)) (c_fld (x @ f)) (c_value (x @ f)))) q') /\
      forall j, j <> i -> q' j = q j.
  Proof.
    intros I J EF AF NB Q H BF BL CF CL NE SV SL. apply in_split in J as (pre & post & ES).
    assert (TE : types (e_fld e) = FComposite) by (rewrite EF; apply (proj1 AT _ _ AF)).
    assert (HB : ScalarSeq.has_buffer c = true) by (destruct H as (_ & B & _); unfold ScalarSeq.has_buffer; now rewrite B).
    pose proof (update_ready s fields types constants W TS DET SC NO FS VIS CMP NF x b es pre e post c I ES TE NB HB BF BL CF CL NE) as U.
    rewrite EF, SV, SL, Z.eqb_refl in U. cbn [andb] in U.
    cbn [P_GenArray.act_all P_GenArray.act k_seqs k_msg]. rewrite Q, AF, String.eqb_refl. cbn [bind]. rewrite U. cbn [bind].
    destruct (seq_take c b' H) as (c' & EC & _). unfold update. rewrite EC, SV. cbn [bind fst snd].
    pose proof (i_cur _ _ _ _ _ _ _ I pre e post ES) as (SVF & _). rewrite EF in SVF. change (x_cursors (set_buffer x (Some b')) f) with (x @ f).
    cbn [set_buffer x_cursors] in SVF. rewrite SVF. cbn [bind fst snd]. eexists. split; [reflexivity|]. intros j N. now apply put_other.
  Qed.
  Lemma write_act st b es i f t vs z : Inv (k_msg st) b es -> In f fields -> arrays f = Some t ->
    switch_pre s fields types constants (k_msg st) f = Ok true -> field_size s fields types constants (k_msg st) f = Ok z ->
    (forall v, In v vs -> a_valid (atypes t) (to_base (atypes t) v) = true) -> z = Z.of_nat (length vs) * a_size (atypes t) ->
    exists st' b', act_all st (ASwitch i f :: map (AAppend i) vs ++ [AUpdate i f]) = Ok st' /\
      let x := k_msg st in let x' := k_msg st' in
      x_buffer x' = Some b' /\ same_size b b' /\ valid (x' @ f) = true /\ field_first s fields types constants x f = Ok (c_first (x' @ f)) /\ c_last (x' @ f) = c_first (x' @ f) + z - 1 /\
      P_ScalarSeq.groups b' (a_size (atypes t)) (c_first (x' @ f) - 1) (map (to_base (atypes t)) vs) /\
      (forall i, First_Bit_Index (b_first b) <= i -> i < c_first (x' @ f) \/ c_last (x' @ f) < i -> bit_at b' i = bit_at b i) /\
      (forall g, In g fields -> (rank fields g < rank fields f)%nat \/ structural_valid (x @ f) = true /\ g <> f -> x' @ g = x @ g) /\
      (forall j, j <> i -> k_seqs st' j = k_seqs st j).
  Proof.
    intros I IF AF PRE EZ VS ZE. pose proof (proj1 AT _ _ AF) as T. pose proof (proj2 AT t) as AS.
    destruct (switch_total s fields types constants W TS DET NO FS VIS CMP NF NL _ b es f I IF T) as (q & E & Q). assert (q = true) by congruence. subst q.
    destruct (Q eq_refl) as ([x' c] & ER). clear Q E.
    destruct (switch_inv s fields types constants W DET SC NO _ _ _ _ _ _ I IF T PRE ER) as (es' & e & J & EF & I' & NB & F' & L' & LE & A8 & CV & CI & H & SV & C1 & C2 & C3 & C4 & C5).
    (* the place *)
    assert (EA : field_first s fields types constants (k_msg st) f = Ok (e_first e) /\ e_last e = e_first e + z - 1).
    { unfold switch in ER. dbind ER a EA. dbind ER l EL. dbind ER y EY. dbind ER r0 E0. dbind ER q0 E1. apply Ok_inj in ER. injection ER as EX EC.
      destruct (field_last_inv _ _ _ _ _ _ _ EL) as (a1 & z1 & A1 & A2 & LE1).
      unfold take_buffer in E0. destruct (has_buffer y) in E0; [|discriminate]. apply Ok_inj in E0. subst r0. cbn [fst snd] in *.
      destruct (x_buffer y) as [b0|] eqn:BY; [|discriminate E1]. unfold ScalarSeq.initialize_bounds in E1. destruct (_ && _) in E1; [|discriminate].
      unfold ScalarSeq.checked in E1. destruct (ScalarSeq.context_predicate _ _) in E1; [|discriminate]. cbn [bind] in E1. apply Ok_inj in E1. subst q0 c.
      cbn [fst ScalarSeq.first ScalarSeq.last] in C1, C2. assert (a1 = a) by congruence. assert (z1 = z) by congruence. split; [congruence|lia]. }
    destruct EA as [EA EL].
    destruct (P_ScalarSeq.C04_append index_last Z (a_size (atypes t)) (a_valid (atypes t)) (fun v => v) (to_base (atypes t)) AS (fun v => to_base_range (atypes t) v AS)
                c b vs H SV VS ltac:(rewrite C2, C3; lia)) as (b' & c' & EC & H' & SV' & BF & BL & SL & F1 & L1 & BF1 & BL1 & G & FR).
    set (st1 := mkClient x' (put (k_seqs st) i (t, c))).
    destruct (append_act i t vs st1 c c' ltac:(apply put_same) EC) as (q & EQ & QI & QO). cbn [k_msg] in EQ.
    destruct (update_act i f t c' x' b b' es' e q I' J EF AF NB QI H') as (q' & EU & QU); try congruence; try lia.
    exists (mkClient (set_cursor (set_buffer x' (Some b')) f
            (mkCursor S_Valid (c_pred (x' @ f)) (c_first (x' @ f)) (c_last (x' @ f)) (c_fld (x' @ f)) (c_value (x' @ f)))) q'), b'.
    split.
    { cbn [P_GenArray.act_all P_GenArray.act]. rewrite AF, PRE. cbn [bind]. rewrite ER. cbn [bind fst snd].
      rewrite (act_all_app _ _ _ _ EQ). exact EU. }
    cbn zeta. cbn [k_msg k_seqs set_cursor set_buffer x_cursors x_buffer]. unfold upd. rewrite String.eqb_refl. cbn [c_first c_last valid c_state].
    apply in_split in J as (pre & post & ES). pose proof (i_cur _ _ _ _ _ _ _ I' pre e post ES) as (_ & _ & _ & D1 & D2 & _).
    rewrite EF in D1, D2. cbn [set_buffer x_cursors] in D1, D2. rewrite D1, D2.
    split; [reflexivity|]. split; [split; assumption|]. split; [reflexivity|]. split; [exact EA|]. split; [exact EL|].
    split; [rewrite <- C3; exact G|]. split; [intros i' I1 I2; apply FR; [exact I1|lia]|]. split.
    - intros g IG OR. assert (NE : g <> f) by (destruct OR as [OR|[_ OR]]; [intros ->; lia|exact OR]).
      destruct (String.eqb_spec g f); [contradiction|]. destruct (structural_valid ((k_msg st) @ f)) eqn:SVF.
      + destruct (CV eq_refl) as [_ ->]. reflexivity.
      + destruct (CI eq_refl) as (_ & _ & _ & _ & BE). destruct OR as [OR|[OR _]]; [|discriminate]. now apply BE.
    - intros j N. rewrite (QU j N), (QO j N). cbn [st1 k_seqs]. now apply put_other.
  Qed.

  (** *** Reading *)
  Lemma next_act i t b k : forall st c, k_seqs st i = Some (t, c) -> seq_holds c b -> ScalarSeq.state_valid c = true ->
    ScalarSeq.last c = ScalarSeq.sequence_last c + Z.of_nat k * a_size (atypes t) ->
    (forall j, 0 <= j < Z.of_nat k -> exists v, 0 <= v < 2 ^ a_size (atypes t) /\ a_valid (atypes t) v = true /\
       forall q, 0 <= q < a_size (atypes t) -> Z.testbit v q = bit_at b (ScalarSeq.sequence_last c + (j + 1) * a_size (atypes t) - q)) ->
    exists q c', act_all st (repeat (ANext i) k) = Ok (mkClient (k_msg st) q) /\ q i = Some (t, c') /\ (forall j, j <> i -> q j = k_seqs st j) /\
      seq_holds c' b /\ ScalarSeq.state_valid c' = true /\ ScalarSeq.sequence_last c' = ScalarSeq.last c /\
      ScalarSeq.first c' = ScalarSeq.first c /\ ScalarSeq.last c' = ScalarSeq.last c.
  Proof.
    pose proof (proj2 AT t) as AS.
    induction k as [|k IH]; intros st c Q H SV SL EV.
    - cbn [repeat P_GenArray.act_all]. exists (k_seqs st), c. destruct st. split; [reflexivity|]. split; [exact Q|]. split; [auto|]. split; [exact H|]. split; [exact SV|]. split; [lia|auto].
    - rewrite Nat2Z.inj_succ in SL, EV. cbn [repeat P_GenArray.act_all P_GenArray.act]. rewrite Q.
      assert (HE : ScalarSeq.has_element (a_size (atypes t)) c = true) by (unfold ScalarSeq.has_element; rewrite SV; apply Z.leb_le; nia).
      destruct (next_step (atypes t) AS c b H HE) as (v & c1 & EC & VR & VB & H' & NE & SV' & SL1 & F1 & L1).
      unfold next_element. rewrite EC. cbn [bind].
      destruct (EV 0 ltac:(lia)) as (w & WR & WV & WB).
      assert (w = v) by (apply (value_bits (a_size (atypes t)) w v); [lia|exact WR|exact VR|]; intros q QQ; rewrite (WB q QQ), (VB q QQ); f_equal; lia). subst w.
      destruct (IH (mkClient (k_msg st) (put (k_seqs st) i (t, c1))) c1 ltac:(apply put_same) H') as (q & c' & A1 & A2 & A3 & A4 & A5 & A6 & A7 & A8).
      + congruence.
      + rewrite SL1, L1. lia.
      + intros j J. destruct (EV (j + 1) ltac:(lia)) as (w & U1 & U2 & U3). exists w. split; [exact U1|]. split; [exact U2|]. intros q QQ. rewrite (U3 q QQ), SL1. f_equal. lia.
      + exists q, c'. split; [exact A1|]. split; [exact A2|]. split; [intros j N; rewrite (A3 j N); now apply put_other|].
        split; [exact A4|]. split; [exact A5|]. split; [congruence|]. split; congruence.
  Qed.
  Lemma read_act st b es i e t : Inv (k_msg st) b es -> In e es -> arrays (e_fld e) = Some t ->
    e_first e mod 8 = 1 -> e_first e <= e_last e -> elements (atypes t) b (e_first e) (e_last e) ->
    exists k q, let f := e_fld e in let x := k_msg st in
      act_all st (ASwitch i f :: repeat (ANext i) k ++ [AUpdate i f]) =
        Ok (mkClient (set_cursor x f (mkCursor S_Valid (c_pred (x @ f)) (c_first (x @ f)) (c_last (x @ f)) (c_fld (x @ f)) (c_value (x @ f)))) q) /\
      Z.of_nat k * a_size (atypes t) = e_last e - e_first e + 1 /\ forall j, j <> i -> q j = k_seqs st j.
  Proof.
    intros I J AF A8 NE (k & K0 & KE & EV). cbn zeta. pose proof (proj1 AT _ _ AF) as T. pose proof (proj2 AT t) as AS.
    pose proof (i_run _ _ _ _ _ _ _ I) as R. pose proof (run_in_fields s fields types constants W _ _ _ _ _ R J) as IF.
    apply in_split in J as JS. destruct JS as (pre & post & ES).
    pose proof (switch_ready s fields types constants W TS DET SC NO FS VIS CMP NF _ b es pre e post I ES T A8 NE) as PRE.
    pose proof (i_cur _ _ _ _ _ _ _ I pre e post ES) as (SVF & _).
    destruct (switch_total s fields types constants W TS DET NO FS VIS CMP NF NL _ b es (e_fld e) I IF T) as (q & E & Q). assert (q = true) by congruence. subst q.
    destruct (Q eq_refl) as ([x' c] & ER). clear Q E.
    destruct (switch_inv s fields types constants W DET SC NO _ _ _ _ _ _ I IF T PRE ER) as (es' & e' & J' & EF & I' & NB & F' & L' & LE & _ & CV & _ & H & SV & C1 & C2 & C3 & C4 & C5).
    destruct (CV SVF) as [-> ->].
    assert (e' = e).
    { pose proof (run_find s fields types constants W _ _ _ _ e R J) as Q1. pose proof (run_find s fields types constants W _ _ _ _ e' R J') as Q2.
      rewrite EF in Q2. congruence. }
    subst e'. clear EF J' LE CV.
    set (st1 := mkClient (set_buffer (k_msg st) None) (put (k_seqs st) i (t, c))).
    destruct (next_act i t b (Z.to_nat k) st1 c ltac:(apply put_same) H SV) as (q & c' & A1 & A2 & A3 & A4 & A5 & A6 & A7 & A9).
    { rewrite Z2Nat.id by lia. lia. }
    { rewrite Z2Nat.id by lia. intros j JJ. destruct (EV j JJ) as (v & V1 & V2 & V3). exists v. split; [exact V1|]. split; [exact V2|]. intros p PP. rewrite (V3 p PP), C3. reflexivity. }
    cbn [st1 k_msg] in A1.
    assert (CB : ScalarSeq.buffer_first c' = b_first b /\ ScalarSeq.buffer_last c' = b_last b).
    { destruct A4 as (P' & B' & _). apply seq_pred_iff in P'. rewrite B' in P'. destruct P' as ((P1 & P2) & _). split; congruence. }
    destruct CB as [CB1 CB2].
    destruct (update_act i (e_fld e) t c' (set_buffer (k_msg st) None) b b es e q I' J eq_refl AF eq_refl A2 A4 CB1 CB2) as (q' & EU & QU); try congruence.
    exists (Z.to_nat k), q'. split; [|split; [rewrite Z2Nat.id by lia; lia|]].
    - cbn [P_GenArray.act_all P_GenArray.act]. rewrite AF, PRE. cbn [bind]. rewrite ER. cbn [bind fst snd].
      rewrite (act_all_app _ _ _ _ A1), EU. rewrite set_buffer_twice. f_equal. f_equal.
      change (x_cursors (set_buffer (k_msg st) None) (e_fld e)) with ((k_msg st) @ (e_fld e)).
      rewrite set_buffer_same; [reflexivity|apply (i_bounds _ _ _ _ _ _ _ I)].
    - intros j N. rewrite (QU j N), (A3 j N). cbn [st1 k_seqs]. now apply put_other.
  Qed.

  Lemma in_before f g : In f fields -> In g (before f fields) -> In g fields /\ (rank fields g < rank fields f)%nat.
  Proof.
    intros IF J. destruct (split_at f fields IF) as [EQ NI]. assert (IG : In g fields) by (rewrite EQ; apply in_or_app; now left). split; [exact IG|].
    assert (UP : (rank fields g <= rank fields f)%nat) by (apply in_upto; [apply W|exact IF|apply in_or_app; now left]).
    assert (NE : rank fields g <> rank fields f) by (intros Q; apply (rank_inj fields g f IG IF) in Q; now subst g). lia.
  Qed.

  (** reading all array fields *)
  Lemma read_all b todo : forall st es, Inv (k_msg st) b es -> incl todo es ->
    (forall e, In e todo -> exists t, arrays (e_fld e) = Some t /\ e_first e mod 8 = 1 /\ e_first e <= e_last e /\ elements (atypes t) b (e_first e) (e_last e)) ->
    exists os st', act_all st os = Ok st' /\ (forall o, In o os -> atyped o /\ reads o) /\ Inv (k_msg st') b es /\
      x_first (k_msg st') = x_first (k_msg st) /\ x_last (k_msg st') = x_last (k_msg st) /\
      (forall e, In e todo -> valid ((k_msg st') @ (e_fld e)) = true) /\
      (forall g, valid ((k_msg st) @ g) = true -> valid ((k_msg st') @ g) = true).
  Proof.
    induction todo as [|e todo IH]; intros st es I IC RD.
    - exists [], st. split; [reflexivity|]. split; [intros o []|]. split; [exact I|]. split; [reflexivity|]. split; [reflexivity|]. split; [intros e []|auto].
    - destruct (RD e (or_introl eq_refl)) as (t & AF & A8 & NE & EL). pose proof (IC e (or_introl eq_refl)) as J.
      destruct (read_act st b es 0%nat e t I J AF A8 NE EL) as (k & q & E & KE & _). cbn zeta in E.
      set (x := k_msg st) in *. set (f := e_fld e) in *.
      set (x1 := set_cursor x f (mkCursor S_Valid (c_pred (x @ f)) (c_first (x @ f)) (c_last (x @ f)) (c_fld (x @ f)) (c_value (x @ f)))) in *.
      pose proof (i_run _ _ _ _ _ _ _ I) as R. assert (IF : In f fields) by (eapply (run_in_fields s fields types constants W); eauto).
      assert (SV : structural_valid (x @ f) = true).
      { apply in_split in J as (pre & post & ES). apply (i_cur _ _ _ _ _ _ _ I pre e post ES). }
      assert (I1 : Inv x1 b es) by (apply inv_valid; [exact I|apply (array_composite fields types arrays atypes AT f t IF AF)|exact SV]).
      destruct (IH (mkClient x1 q) es I1 (fun e' J' => IC e' (or_intror J')) (fun e' J' => RD e' (or_intror J'))) as (os & st' & E' & OK & I' & F' & L' & V1 & V2).
      cbn [k_msg] in F', L', V2.
      assert (VG : forall g, valid (x @ g) = true -> valid (x1 @ g) = true).
      { intros g V. unfold x1. cbn [set_cursor x_cursors]. unfold upd. destruct (String.eqb g f); [reflexivity|exact V]. }
      exists ((ASwitch 0 f :: repeat (ANext 0) k ++ [AUpdate 0 f]) ++ os), st'. split; [rewrite (act_all_app _ _ _ _ E); exact E'|]. split; [|split; [exact I'|]].
      + intros o JO. apply in_app_or in JO as [[<-|JO]|JO]; [split; [split; [exact IF|apply (proj1 AT _ _ AF)]|exact Logic.I]| |now apply OK].
        apply in_app_or in JO as [JO|[<-|[]]]; [|split; [split; [exact IF|apply (proj1 AT _ _ AF)]|exact Logic.I]].
        apply repeat_spec in JO. subst o. split; exact Logic.I.
      + split; [exact F'|]. split; [exact L'|]. split; [|intros g V; now apply V2, VG].
        intros e' [<-|J']; [|now apply V1]. apply V2. unfold x1. cbn [set_cursor x_cursors]. unfold upd. fold f. now rewrite String.eqb_refl.
  Qed.
  Lemma verify_act fs : forall st, act_all st (map (fun f => AMsg (OVerify f)) fs) =
    (let* x := verify_all s fields types constants (k_msg st) fs in Ok (mkClient x (k_seqs st))).
  Proof.
    induction fs as [|f fs IH]; intros st; cbn [map P_GenArray.act_all verify_all P_GenArray.act exec]; [now destruct st|].
    destruct (verify s fields types constants (k_msg st) f) as [x|e]; cbn [bind]; [|reflexivity]. rewrite IH. reflexivity.
  Qed.

  (** *** A buffer that does not come back *)
  Definition stuck_seq (i : nat) (st : client) : Prop :=
    exists t c b, k_seqs st i = Some (t, c) /\ ScalarSeq.buf c = Some b /\
      ((ScalarSeq.last c - ScalarSeq.first c + 1) mod a_size (atypes t) <> 0 \/ ScalarSeq.state_valid c = false).
  Lemma stuck_act i st b es o st' : K st b es -> atyped o -> stuck_seq i st -> act st o = Ok st' -> stuck_seq i st'.
  Proof.
    intros KK TY (t & c & b0 & Q & BC & BAD) E.
    destruct (held_none _ _ _ _ _ _ (k_held _ _ _ _ _ _ _ _ _ KK) Q BC) as (NB & -> & OTH).
    destruct (k_seq _ _ _ _ _ _ _ _ _ KK i t c b Q BC) as (H & _ & _ & _ & (k & K0 & SL) & _). pose proof (proj2 AT t) as AS.
    assert (HB : has_buffer (k_msg st) = false) by (unfold has_buffer; now rewrite NB).
    destruct o as [o|f|j f|j v|j|j f]; cbn [P_GenArray.act] in E.
    - dbind E x EX. apply Ok_inj in E. subst st'. exists t, c, b. auto.
    - dbind E x EX. exfalso. unfold guarded, set_empty_pre, set_composite_pre in EX. rewrite HB in EX. discriminate EX.
    - destruct (arrays f); [|discriminate E]. exfalso. unfold switch_pre in E. rewrite HB in E. discriminate E.
    - destruct (k_seqs st j) as [[t' c']|] eqn:QJ; [|discriminate]. dbind E c1 EC. apply Ok_inj in E. subst st'.
      destruct (Nat.eq_dec j i) as [->|N]; [|exfalso; unfold append_element, ScalarSeq.append_element in EC; rewrite (OTH _ _ _ QJ N) in EC; discriminate EC].
      rewrite Q in QJ. injection QJ as <- <-. unfold append_element in EC.
      destruct (ScalarSeq.state_valid c && a_valid (atypes t) (to_base (atypes t) v) && (a_size (atypes t) <=? ScalarSeq.available_space c)) eqn:G;
        [|unfold ScalarSeq.append_element in EC; rewrite BC, G in EC; discriminate EC].
      apply andb_true_iff in G as [G G3]. apply andb_true_iff in G as [G1 G2]. apply Z.leb_le in G3.
      destruct (append_step (atypes t) AS c b v H G1 G2 G3) as (b' & c2 & EC2 & H' & _ & _ & _ & _ & F1 & L1 & _).
      assert (c2 = c1) by congruence. subst c2. exists t, c1, b'. cbn [k_seqs]. rewrite put_same. split; [reflexivity|]. split; [apply H'|].
      left. rewrite F1, L1. destruct BAD as [BAD|BAD]; [exact BAD|congruence].
    - destruct (k_seqs st j) as [[t' c']|] eqn:QJ; [|discriminate]. dbind E c1 EC. apply Ok_inj in E. subst st'.
      destruct (Nat.eq_dec j i) as [->|N].
      2: { exfalso. unfold next_element, ScalarSeq.next, ScalarSeq.has_buffer in EC. rewrite (OTH _ _ _ QJ N) in EC. discriminate EC. }
      rewrite Q in QJ. injection QJ as <- <-. unfold next_element in EC.
      destruct (ScalarSeq.has_element (a_size (atypes t)) c) eqn:HE.
      2: { unfold ScalarSeq.next in EC. rewrite HE, andb_false_r in EC. discriminate EC. }
      destruct (next_step (atypes t) AS c b H HE) as (v & c2 & EC2 & _ & _ & H' & _ & _ & _ & F1 & L1).
      assert (c2 = c1) by congruence. subst c2. exists t, c1, b. cbn [k_seqs]. rewrite put_same. split; [reflexivity|]. split; [apply H'|].
      left. rewrite F1, L1. destruct BAD as [BAD|BAD]; [exact BAD|]. unfold ScalarSeq.has_element in HE. rewrite BAD in HE. discriminate.
    - destruct (k_seqs st j) as [[t' c']|] eqn:QJ; [|discriminate]. destruct (arrays f) as [t1|] eqn:AF; [|discriminate].
      destruct (String.eqb_spec t' t1) as [<-|]; [|discriminate]. dbind E ok PRE. destruct ok; [|discriminate]. exfalso.
      destruct (update_pre_inv m fields types constants _ _ _ PRE) as (_ & _ & (b1 & B1) & SV & FF & FZ & FL).
      destruct (Nat.eq_dec j i) as [->|N]; [|rewrite (OTH _ _ _ QJ N) in B1; discriminate]. rewrite Q in QJ. injection QJ as <- <-.
      destruct BAD as [BAD|BAD]; [|congruence]. apply BAD.
      destruct (field_last_inv _ _ _ _ _ _ _ FL) as (a1 & z1 & A1 & A2 & LE). assert (a1 = ScalarSeq.first c) by congruence. assert (z1 = seq_size c) by congruence.
      subst a1 z1. unfold seq_size in LE.
      replace (ScalarSeq.last c - ScalarSeq.first c + 1) with (k * a_size (atypes t)) by lia. apply Z.mod_mul. lia.
  Qed.
  Lemma stuck_all i os : forall st b es st', K st b es -> (forall o, In o os -> atyped o) -> stuck_seq i st -> act_all st os = Ok st' -> stuck_seq i st'.
  Proof.
    induction os as [|o os IH]; intros st b es st' KK TY ST E; cbn [P_GenArray.act_all] in E; [apply Ok_inj in E; now subst|].
    dbind E st1 E1. pose proof (TY o (or_introl eq_refl)) as TO.
    destruct (act_inv n m fields types constants arrays atypes A SC NO NS AT st b es o st1 KK TO E1) as (b1 & es1 & K1 & _).
    apply (IH st1 b1 es1 st' K1); [intros o' J; apply TY; now right| |exact E]. exact (stuck_act i st b es o st1 KK TO ST E1).
  Qed.
End More.

(** ** C64 *)

(** After any calls the buffer is in exactly one of the contexts; what the context of the
    message shows is a path through the message over this buffer, valid array fields consist
    of valid elements, and a sequence that has the buffer lies on an array field of its
    type. *)
Theorem C64_history : forall n m fields types constants arrays atypes b first last os st,
  accepted n m fields types constants -> scoped (structure m) fields -> no_overlay (structure m) ->
  no_own_size (structure m) types -> array_types types arrays atypes -> input b first last ->
  (forall o, In o os -> atyped fields types arrays o) ->
  act_all (structure m) fields types constants arrays atypes (start fields b first last) os = Ok st ->
  exists b' es, held st b' /\ input b' first last /\ b_first b' = b_first b /\ length (b_data b') = length (b_data b) /\
    run (structure m) types constants first last b' es /\ shows fields (k_msg st) es /\
    (forall e t, In e es -> arrays (e_fld e) = Some t -> valid (x_cursors (k_msg st) (e_fld e)) = true ->
       elements (atypes t) b' (e_first e) (e_last e)) /\
    (forall i t c, k_seqs st i = Some (t, c) -> ScalarSeq.buf c <> None ->
       ScalarSeq.buf c = Some b' /\ exists e, In e es /\ arrays (e_fld e) = Some t /\ ScalarSeq.first c = e_first e /\ ScalarSeq.last c = e_last e).
Proof.
  intros n m fields types constants arrays atypes b first last os st A SC NO NS AT IN TY E.
  destruct (act_all_inv n m fields types constants arrays atypes A SC NO NS AT os _ b [] st (start_k n m fields types constants arrays atypes A b first last IN) TY E) as (b' & es & KK & F & L & (BF & BL) & _).
  exists b', es. pose proof (k_inv _ _ _ _ _ _ _ _ _ KK) as I. split; [apply KK|]. split; [|split; [exact BF|split; [exact BL|]]].
  { destruct IN as (WB & F1 & IP). split; [apply (i_bounds _ _ _ _ _ _ _ I)|]. split; [exact F1|]. unfold initialize_pre, b_last in *. rewrite BF, BL. exact IP. }
  pose proof (i_run _ _ _ _ _ _ _ I) as R. cbn [set_buffer x_first x_last] in R. rewrite F, L in R. cbn [start k_msg initialize x_first x_last] in R.
  split; [exact R|]. split; [exact (inv_shows m fields types constants _ _ _ I)|]. split.
  - intros e t J AF V. assert (IF : In (e_fld e) fields) by (eapply (run_in_fields _ fields types constants (acc_wf _ _ _ _ _ A)); eauto).
    pose proof (k_arr _ _ _ _ _ _ _ _ _ KK (e_fld e) t IF AF V) as EL. apply in_split in J as (pre & post & ES).
    pose proof (i_cur _ _ _ _ _ _ _ I pre e post ES) as (_ & _ & _ & D1 & D2 & _). cbn [set_buffer x_cursors] in D1, D2. now rewrite D1, D2 in EL.
  - intros i t c Q B. destruct (ScalarSeq.buf c) as [b0|] eqn:BC; [|contradiction].
    destruct (held_none _ _ _ _ _ _ (k_held _ _ _ _ _ _ _ _ _ KK) Q BC) as (_ & -> & _). split; [reflexivity|].
    apply (k_seq _ _ _ _ _ _ _ _ _ KK i t c b' Q BC).
Qed.

(** Valid_Message after any calls: the buffer has a complete message, all array fields of
    which are non-empty and consist of valid elements. *)
Theorem C64_valid_message : forall n m fields types constants arrays atypes b first last os st b' k,
  accepted n m fields types constants -> scoped (structure m) fields -> no_overlay (structure m) ->
  no_own_size (structure m) types -> array_types types arrays atypes -> input b first last ->
  (forall o, In o os -> atyped fields types arrays o) ->
  act_all (structure m) fields types constants arrays atypes (start fields b first last) os = Ok st ->
  x_buffer (k_msg st) = Some b' -> valid_message (structure m) fields types constants k (k_msg st) = Ok true ->
  exists es, complete (structure m) types constants first last b' es /\ shows fields (k_msg st) es /\
    forall e t, In e es -> arrays (e_fld e) = Some t -> e_first e <= e_last e /\ elements (atypes t) b' (e_first e) (e_last e).
Proof.
  intros n m fields types constants arrays atypes b first last os st b' k A SC NO NS AT IN TY E B V.
  destruct (history_k n m fields types constants arrays atypes A SC NO NS AT b first last os st IN TY E) as (b1 & es & KK & F & L & _).
  assert (b1 = b').
  { destruct (k_held _ _ _ _ _ _ _ _ _ KK) as [[Q _]|[Q _]]; congruence. }
  subst b1. pose proof (inv_msg _ _ _ _ _ _ _ _ _ KK B) as I. exists es.
  destruct (proj1 (valid_message_spec (structure m) fields types constants (acc_wf _ _ _ _ _ A) (acc_det _ _ _ _ _ A) SC _ b' es k true I V) eq_refl) as [CO VF].
  rewrite F, L in CO. split; [exact CO|]. split; [exact (inv_shows m fields types constants _ _ _ I)|].
  intros e t J AF. pose proof (VF e J) as VE. unfold valid_field in VE. apply andb_true_iff in VE as [V1 V2]. apply Z.ltb_lt in V2.
  assert (IF : In (e_fld e) fields) by (eapply (run_in_fields _ fields types constants (acc_wf _ _ _ _ _ A)); [apply (i_run _ _ _ _ _ _ _ I)|exact J]).
  pose proof (k_arr _ _ _ _ _ _ _ _ _ KK (e_fld e) t IF AF V1) as EL. apply in_split in J as (pre & post & ES).
  pose proof (i_cur _ _ _ _ _ _ _ I pre e post ES) as (_ & _ & _ & D1 & D2 & _). rewrite D1, D2 in EL, V2. split; [lia|exact EL].
Qed.

(** No call fails a check: preconditions can be evaluated, and a procedure whose
    precondition holds succeeds. *)
Theorem C64_total : forall n m fields types constants arrays atypes b first last os,
  accepted n m fields types constants -> proper m fields types constants -> scoped (structure m) fields ->
  no_own_size (structure m) types -> no_own (structure m) ALast -> array_types types arrays atypes -> input b first last ->
  (forall o, In o os -> atyped fields types arrays o) ->
  (exists st, act_all (structure m) fields types constants arrays atypes (start fields b first last) os = Ok st) \/
  exists e, act_all (structure m) fields types constants arrays atypes (start fields b first last) os = Err e /\ In e refused.
Proof.
  intros n m fields types constants arrays atypes b first last os A P SC NS NL AT IN TY.
  exact (act_all_ok n m fields types constants arrays atypes A SC (pr_overlay _ _ _ _ P) NS AT P NL os _ b []
    (start_k n m fields types constants arrays atypes A b first last IN) TY).
Qed.

(** Writing: Switch_To_<Field>, one Append_Element for each element and Update_<Field>
    succeed if the elements are valid and fill the field; the elements are then in the
    field, which is valid, everything else in the buffer and the fields before are as they
    were. *)
Theorem C64_write : forall n m fields types constants arrays atypes b first last os st b0 i f t vs,
  accepted n m fields types constants -> proper m fields types constants -> scoped (structure m) fields ->
  no_own_size (structure m) types -> no_own (structure m) ALast -> array_types types arrays atypes -> input b first last ->
  (forall o, In o os -> atyped fields types arrays o) ->
  act_all (structure m) fields types constants arrays atypes (start fields b first last) os = Ok st ->
  x_buffer (k_msg st) = Some b0 -> In f fields -> arrays f = Some t ->
  switch_pre (structure m) fields types constants (k_msg st) f = Ok true ->
  (forall v, In v vs -> 0 <= v < 2 ^ a_size (atypes t) /\ a_valid (atypes t) v = true) ->
  field_size (structure m) fields types constants (k_msg st) f = Ok (Z.of_nat (length vs) * a_size (atypes t)) ->
  exists st' b' a, act_all (structure m) fields types constants arrays atypes st (ASwitch i f :: map (AAppend i) vs ++ [AUpdate i f]) = Ok st' /\
    x_buffer (k_msg st') = Some b' /\ b_first b' = b_first b0 /\ length (b_data b') = length (b_data b0) /\
    field_first (structure m) fields types constants (k_msg st) f = Ok a /\
    let c := x_cursors (k_msg st') f in
    valid c = true /\ c_first c = a /\ c_last c = a + Z.of_nat (length vs) * a_size (atypes t) - 1 /\
    P_ScalarSeq.groups b' (a_size (atypes t)) (a - 1) vs /\
    (forall i, First_Bit_Index (b_first b0) <= i -> i < c_first c \/ c_last c < i -> bit_at b' i = bit_at b0 i) /\
    (forall g, In g (before f fields) -> x_cursors (k_msg st') g = x_cursors (k_msg st) g) /\
    (structural_valid (x_cursors (k_msg st) f) = true -> forall g, In g fields -> g <> f -> x_cursors (k_msg st') g = x_cursors (k_msg st) g).
Proof.
  intros n m fields types constants arrays atypes b first last os st b0 i f t vs A P SC NS NL AT IN TY E B IF AF PRE VS EZ.
  pose proof (pr_overlay _ _ _ _ P) as NO.
  destruct (history_k n m fields types constants arrays atypes A SC NO NS AT b first last os st IN TY E) as (b1 & es & KK & F & L & _).
  assert (b1 = b0) by (destruct (k_held _ _ _ _ _ _ _ _ _ KK) as [[Q _]|[Q _]]; congruence). subst b1.
  pose proof (inv_msg _ _ _ _ _ _ _ _ _ KK B) as I.
  assert (TB : forall v, In v vs -> to_base (atypes t) v = v) by (intros v J; unfold to_base; apply Z.mod_small, VS, J).
  destruct (write_act n m fields types constants arrays atypes A SC NO AT P NL st b0 es i f t vs _ I IF AF PRE EZ) as (st' & b' & E' & W1 & (W2 & W3) & W4 & W5 & W6 & W7 & W8 & W9 & _).
  - intros v J. rewrite (TB v J). now apply VS.
  - reflexivity.
  - exists st', b', (c_first (x_cursors (k_msg st') f)). cbn zeta. split; [exact E'|]. split; [exact W1|]. split; [exact W2|]. split; [exact W3|]. split; [exact W5|].
    split; [exact W4|]. split; [reflexivity|]. split; [exact W6|]. split.
    { rewrite <- (map_id vs). rewrite <- (map_ext_in _ _ _ TB). exact W7. }
    split; [exact W8|]. split.
    + intros g J. destruct (in_before n m fields types constants A f g IF J) as [IG RK]. apply W9; auto.
    + intros SV g IG NE. apply W9; auto.
Qed.

(** Reading: Verify, Switch_To_<Field>, Next and Update_<Field> can make the message valid
    if and only if the buffer has a complete message with non-empty arrays of valid
    elements. *)
Theorem C64_parse : forall n m fields types constants arrays atypes b first last,
  accepted n m fields types constants -> proper m fields types constants -> scoped (structure m) fields ->
  no_own_size (structure m) types -> no_own (structure m) ALast -> array_types types arrays atypes -> input b first last ->
  last + 1 < Bit_Length_Last -> (forall f, In f fields -> types f = FComposite -> arrays f <> None) ->
  (forall es e, run (structure m) types constants first last b es -> In e es -> types (e_fld e) = FComposite -> e_first e mod 8 = 1) ->
  ((exists os st k, act_all (structure m) fields types constants arrays atypes (start fields b first last) os = Ok st /\
      (forall o, In o os -> atyped fields types arrays o /\ reads o) /\ x_buffer (k_msg st) <> None /\
      valid_message (structure m) fields types constants k (k_msg st) = Ok true) <->
   exists es, complete (structure m) types constants first last b es /\
     forall e t, In e es -> arrays (e_fld e) = Some t -> e_first e <= e_last e /\ elements (atypes t) b (e_first e) (e_last e)).
Proof.
  intros n m fields types constants arrays atypes b first last A P SC NS NL AT IN LL AA AL. pose proof (pr_overlay _ _ _ _ P) as NO.
  pose proof (acc_wf _ _ _ _ _ A) as W. split.
  - intros (os & st & k & E & TY & B & V).
    destruct (history_k n m fields types constants arrays atypes A SC NO NS AT b first last os st IN (fun o J => proj1 (TY o J)) E) as (b1 & es & KK & F & L & _ & RD).
    rewrite (RD (fun o J => proj2 (TY o J))) in KK.
    assert (B' : x_buffer (k_msg st) = Some b) by (destruct (k_held _ _ _ _ _ _ _ _ _ KK) as [[Q _]|[Q _]]; [exact Q|contradiction]).
    destruct (C64_valid_message n m fields types constants arrays atypes b first last os st b k A SC NO NS AT IN (fun o J => proj1 (TY o J)) E B' V) as (es' & CO & _ & EL).
    exists es'. auto.
  - intros (es & CO & EL).
    destruct (C50_verify n m fields types constants b first last fields A P IN (fun f J => J)) as (x & V).
    pose proof IN as (WB & F1 & IP).
    destruct (verify_message_inv (structure m) fields types constants W (acc_types _ _ _ _ _ A) (acc_det _ _ _ _ _ A) b first last x WB F1 IP LL V) as (es1 & I & F & L & MAX).
    pose proof (i_run _ _ _ _ _ _ _ I) as R. rewrite F, L in R.
    destruct (complete_run (structure m) types constants (acc_types _ _ _ _ _ A) first last (acc_det _ _ _ _ _ A) b es es1 CO R) as (t1 & E1).
    destruct (MAX es (proj1 CO)) as (t2 & E2). assert (es1 = es).
    { rewrite E2 in E1. rewrite <- app_assoc in E1. rewrite <- (app_nil_r es) in E1 at 1. apply app_inv_head in E1. symmetry in E1. apply app_eq_nil in E1 as [-> _]. now rewrite app_nil_r in E2. }
    clear E1 E2 MAX. subst es1.
    set (todo := filter (fun e => composite fields types (e_fld e)) es).
    set (st0 := mkClient x (k_seqs (start fields b first last))).
    assert (E0 : act_all (structure m) fields types constants arrays atypes (start fields b first last) (map (fun f => AMsg (OVerify f)) fields) = Ok st0).
    { rewrite verify_act. cbn [start k_msg]. unfold verify_message in V. rewrite V. reflexivity. }
    assert (CM : forall e, In e es -> composite fields types (e_fld e) = true -> types (e_fld e) = FComposite).
    { intros e _ C. unfold composite in C. destruct (types (e_fld e)); [discriminate|reflexivity]. }
    destruct (read_all n m fields types constants arrays atypes A SC NO AT P NL b todo st0 es I) as (os & st & E & OK & I' & F' & L' & V1 & V2).
    + intros e J. apply filter_In in J. apply J.
    + intros e J. apply filter_In in J as [J C]. pose proof (CM e J C) as T.
      assert (IF : In (e_fld e) fields) by (eapply (run_in_fields _ fields types constants W); eauto).
      destruct (arrays (e_fld e)) as [t|] eqn:AF; [|now destruct (AA _ IF T)]. destruct (EL e t J AF) as [NE EV].
      exists t. split; [reflexivity|]. split; [exact (AL es e R J T)|]. auto.
    + exists (map (fun f => AMsg (OVerify f)) fields ++ os), st, (S (length fields)).
      split; [rewrite (act_all_app m fields types constants arrays atypes _ _ _ _ E0); exact E|]. split; [|split].
      * intros o J. apply in_app_or in J as [J|J]; [|now apply OK]. apply in_map_iff in J as (f & <- & J). split; [|exact Logic.I]. split; [split; [exact J|exact Logic.I]|exact Logic.I].
      * destruct (i_bounds _ _ _ _ _ _ _ I') as [-> _]. discriminate.
      * destruct (message_ok n m fields types constants A P false (k_msg st) b es (S (length fields)) I' ltac:(lia)) as (q & Q).
        change (message_cond (structure m) fields types constants (S (length fields)) false (k_msg st) INITIAL)
          with (valid_message (structure m) fields types constants (S (length fields)) (k_msg st)) in Q. rewrite Q. f_equal.
        apply (valid_message_spec (structure m) fields types constants W (acc_det _ _ _ _ _ A) SC _ b es _ q I' Q).
        cbn [st0 k_msg] in F', L'. rewrite F', L', F, L. split; [exact CO|]. intros e J.
        assert (IF : In (e_fld e) fields) by (eapply (run_in_fields _ fields types constants W); eauto).
        apply in_split in J as JS. destruct JS as (pre & post & ES). pose proof (i_cur _ _ _ _ _ _ _ I' pre e post ES) as (A1 & A2 & _ & C1 & C2 & _).
        unfold valid_field. rewrite C1, C2. apply andb_true_iff. split.
        -- destruct (composite fields types (e_fld e)) eqn:C; [apply V1, filter_In; auto|]. now apply A2.
        -- apply Z.ltb_lt. destruct (types (e_fld e)) as [size vd|] eqn:T.
           ++ pose proof (run_scalar_size _ _ _ (acc_types _ _ _ _ _ A) _ _ _ _ _ _ _ R J T). lia.
           ++ destruct (arrays (e_fld e)) as [t|] eqn:AF; [|now destruct (AA _ IF T)]. destruct (EL e t J AF) as [NE _]. lia.
Qed.

(** A sequence that has read an invalid element, or lies on a field the size of which is not
    a multiple of the size of the elements, cannot be given back: the message stays without
    buffer. *)
Theorem C64_stuck : forall n m fields types constants arrays atypes b first last os st i t c os' st',
  accepted n m fields types constants -> scoped (structure m) fields -> no_overlay (structure m) ->
  no_own_size (structure m) types -> array_types types arrays atypes -> input b first last ->
  (forall o, In o (os ++ os') -> atyped fields types arrays o) ->
  act_all (structure m) fields types constants arrays atypes (start fields b first last) os = Ok st ->
  k_seqs st i = Some (t, c) -> ScalarSeq.buf c <> None ->
  (ScalarSeq.last c - ScalarSeq.first c + 1) mod a_size (atypes t) <> 0 \/ ScalarSeq.state_valid c = false ->
  act_all (structure m) fields types constants arrays atypes st os' = Ok st' -> x_buffer (k_msg st') = None.
Proof.
  intros n m fields types constants arrays atypes b first last os st i t c os' st' A SC NO NS AT IN TY E Q B BAD E'.
  destruct (history_k n m fields types constants arrays atypes A SC NO NS AT b first last os st IN (fun o J => TY o (in_or_app _ _ _ (or_introl J))) E) as (b1 & es & KK & _).
  assert (ST : stuck_seq atypes i st) by (destruct (ScalarSeq.buf c) as [b2|] eqn:BC; [exists t, c, b2; auto|contradiction]).
  assert (TY' : forall o, In o os' -> atyped fields types arrays o) by (intros o J; apply TY, in_or_app; now right).
  destruct (stuck_all n m fields types constants arrays atypes A SC NO NS AT i os' st b1 es st' KK TY' ST E') as (t2 & c2 & b2 & Q2 & BC2 & _).
  destruct (act_all_inv n m fields types constants arrays atypes A SC NO NS AT os' st b1 es st' KK TY' E') as (b3 & es3 & K3 & _).
  apply (held_none _ _ _ _ _ _ (k_held _ _ _ _ _ _ _ _ _ K3) Q2 BC2).
Qed.

(** ** Cases *)

(** the value of the message above as an array of numbers, all of which but 255 are valid *)
Definition tlv_arrays (f : field) : option string := if String.eqb f "value" then Some "values" else None.
Definition numbers (size : Z) (t : string) : array := mkArray size (fun v => negb (v =? 255)).
Definition tlv_act (size : Z) (data : list Z) (os : list aop) : res client :=
  act_all (structure tlv) tlv_fields tlv_types no_constants tlv_arrays (numbers size)
    (start tlv_fields (mkBuffer 1 data) 1 (8 * Z.of_nat (length data))) os.
Definition tlv_verified : list aop := [AMsg (OVerify "tag"); AMsg (OVerify "length"); AMsg (OVerify "value")].
Lemma numbers_types size : 1 <= size <= 64 -> array_types tlv_types tlv_arrays (numbers size).
Proof.
  intros S. split; [|intros t; exact S]. intros f t. unfold tlv_arrays, tlv_types. destruct (String.eqb_spec f "value") as [->|]; [reflexivity|discriminate].
Qed.
Lemma tlv_atyped os : Forall (fun o => match o with
    | AMsg (OVerify f) => In f tlv_fields
    | AMsg (OSet f v) => f = "tag" /\ 0 <= v < 2 ^ 8 \/ f = "length" /\ 0 <= v < 2 ^ 16
    | AMsg _ => False
    | AEmpty f | ASwitch _ f | AUpdate _ f => f = "value"
    | _ => True end) os -> forall o, In o os -> atyped tlv_fields tlv_types tlv_arrays o.
Proof.
  intros H o J. rewrite Forall_forall in H. specialize (H o J).
  destruct o as [[f|f v|c f|c f v]|f|i f|i v|i|i f]; cbn [atyped]; try contradiction; try exact Logic.I;
    try (subst f; split; [cbn; tauto|reflexivity]).
  - split; [|exact Logic.I]. split; [exact H|exact Logic.I].
  - split; [|exact Logic.I]. destruct H as [[-> H]|[-> H]]; (split; [cbn; tauto|]); do 2 eexists; (split; [reflexivity|exact H]).
Qed.
Ltac tlv_typed := apply tlv_atyped; repeat constructor; cbn; auto 6; lia.
(** alignment in C64_parse *)
Lemma tlv_aligned b L es e : run (structure tlv) tlv_types no_constants 1 L b es -> In e es -> tlv_types (e_fld e) = FComposite -> e_first e mod 8 = 1.
Proof.
  assert (X : forall es, run (structure tlv) tlv_types no_constants 1 L b es -> (last_fld es = INITIAL -> end_bit 1 es = 0) /\
    (last_fld es = "tag" -> end_bit 1 es = 8) /\ (last_fld es = "length" -> end_bit 1 es = 24)).
  { clear es e. intros es R. induction R as [|es e R (I1 & I2 & I3) ST]; [cbn; repeat split; intros Q; try discriminate Q; reflexivity|].
    destruct ST as ((l & z & IL & S & T & NF & _ & FA & SZ & _ & LE & _) & _). rewrite last_fld_snoc, end_bit_snoc.
    cbn in IL. destruct IL as [<-|[<-|[<-|[<-|[<-|[]]]]]]; cbn [source target lk lfirst lsize] in *; try (now destruct NF);
      rewrite <- T in SZ |- *; symmetry in S; (split; [intros Q; discriminate Q|split; intros Q; try discriminate Q]); cbn in SZ.
    - specialize (I1 S). lia.
    - specialize (I2 S). lia. }
  intros R J T. apply in_split in J as (pre & post & ->). pose proof (run_step _ _ _ _ _ _ _ _ _ R) as ((l & z & IL & S & TT & NF & _ & FA & _) & _).
  assert (R' : run (structure tlv) tlv_types no_constants 1 L b pre) by (eapply run_prefix; eauto). destruct (X pre R') as (_ & _ & X3).
  cbn in IL. destruct IL as [<-|[<-|[<-|[<-|[<-|[]]]]]]; cbn [source target lk lfirst lsize] in *; try (now destruct NF); rewrite <- TT in T; try discriminate T.
  rewrite (X3 (eq_sym S)) in FA. rewrite FA. reflexivity.
Qed.
(** a result with a property *)
Lemma result_exists {A} (r : res A) (p : A -> Prop) : match r with Ok x => p x | Err _ => False end -> exists x, r = Ok x /\ p x.
Proof. destruct r as [x|e]; [eauto|intros []]. Qed.
Definition aview (r : res client) : option (option (list Z) * list (bool * bool * Z * Z) * res bool * list (option (bool * bool * Z))) :=
  match r with
  | Ok st => Some (option_map b_data (x_buffer (k_msg st)),
                   map (fun f => let c := x_cursors (k_msg st) f in (structural_valid c, valid c, c_first c, c_last c)) tlv_fields,
                   valid_message (structure tlv) tlv_fields tlv_types no_constants 4 (k_msg st),
                   map (fun i => match k_seqs st i with
                                 | Some (_, c) => Some (ScalarSeq.has_buffer c, ScalarSeq.state_valid c, ScalarSeq.sequence_last c)
                                 | None => None end) [0%nat; 1%nat])
  | Err _ => None
  end.

(** reading two elements of 8 bits: the message is valid only afterwards *)
Definition read_two : list aop := tlv_verified ++ [ASwitch 0 "value"; ANext 0; ANext 0; AUpdate 0 "value"].
Example C64_history_meets : (forall o, In o read_two -> atyped tlv_fields tlv_types tlv_arrays o /\ reads o) /\
  input (mkBuffer 1 [1; 0; 2; 7; 8]) 1 40 /\ array_types tlv_types tlv_arrays (numbers 8) /\
  aview (tlv_act 8 [1; 0; 2; 7; 8] tlv_verified) =
    Some (Some [1; 0; 2; 7; 8], [(true, true, 1, 8); (true, true, 9, 24); (true, false, 25, 40)], Ok false, [None; None]) /\
  aview (tlv_act 8 [1; 0; 2; 7; 8] read_two) =
    Some (Some [1; 0; 2; 7; 8], [(true, true, 1, 8); (true, true, 9, 24); (true, true, 25, 40)], Ok true, [Some (false, true, 40); None]).
Proof.
  split; [|split; [exact tlv_input|split; [apply numbers_types; lia|split; vm_compute; reflexivity]]].
  intros o J. split; [revert o J; tlv_typed|]. cbn in J. repeat (destruct J as [<-|J]; [exact Logic.I|]). destruct J.
Qed.
(** in between the buffer is in the sequence, and no other call gets at it *)
Example C64_held_case :
  aview (tlv_act 8 [1; 0; 2; 7; 8] (tlv_verified ++ [ASwitch 0 "value"; ANext 0])) =
    Some (None, [(true, true, 1, 8); (true, true, 9, 24); (true, false, 25, 40)], Ok false, [Some (true, true, 32); None]) /\
  tlv_act 8 [1; 0; 2; 7; 8] (tlv_verified ++ [ASwitch 0 "value"; ANext 0; AUpdate 0 "value"]) = Err "precondition" /\
  tlv_act 8 [1; 0; 2; 7; 8] (tlv_verified ++ [ASwitch 0 "value"; ASwitch 1 "value"]) = Err "precondition" /\
  tlv_act 8 [1; 0; 2; 7; 8] (tlv_verified ++ [ASwitch 0 "value"; AMsg (OSet "tag" 3)]) = Err "precondition".
Proof. repeat split; vm_compute; reflexivity. Qed.

(** writing *)
Definition set_two : list aop := [AMsg (OSet "tag" 1); AMsg (OSet "length" 2)].
Example C64_write_meets : proper tlv tlv_fields tlv_types no_constants /\ no_own (structure tlv) ALast /\
  (forall o, In o set_two -> atyped tlv_fields tlv_types tlv_arrays o) /\ input (mkBuffer 1 [0; 0; 0; 0; 0]) 1 40 /\
  exists st, tlv_act 8 [0; 0; 0; 0; 0] set_two = Ok st /\ x_buffer (k_msg st) = Some (mkBuffer 1 [1; 0; 2; 0; 0]) /\
    switch_pre (structure tlv) tlv_fields tlv_types no_constants (k_msg st) "value" = Ok true /\
    field_size (structure tlv) tlv_fields tlv_types no_constants (k_msg st) "value" = Ok 16.
Proof.
  split; [apply C50_meets|]. split; [apply C50_meets|]. split; [tlv_typed|]. split.
  { split; [split; [cbn; lia|]|split; [lia|reflexivity]]. intros x I. cbn in I. decompose [or] I; subst; try lia; contradiction. }
  apply result_exists. vm_compute. repeat split; reflexivity.
Qed.
Example C64_write_case :
  aview (tlv_act 8 [0; 0; 0; 0; 0] (set_two ++ [ASwitch 1 "value"; AAppend 1 7; AAppend 1 8; AUpdate 1 "value"])) =
    Some (Some [1; 0; 2; 7; 8], [(true, true, 1, 8); (true, true, 9, 24); (true, true, 25, 40)], Ok true, [None; Some (false, true, 40)]) /\
  tlv_act 8 [0; 0; 0; 0; 0] (set_two ++ [ASwitch 1 "value"; AAppend 1 7; AUpdate 1 "value"]) = Err "precondition" /\
  tlv_act 8 [0; 0; 0; 0; 0] (set_two ++ [ASwitch 1 "value"; AAppend 1 255]) = Err "Append_Element precondition" /\
  tlv_act 8 [0; 0; 0; 0; 0] (set_two ++ [ASwitch 1 "value"; AAppend 1 7; AAppend 1 8; AAppend 1 9]) = Err "Append_Element precondition".
Proof. repeat split; vm_compute; reflexivity. Qed.
(** an empty array does not make the message valid *)
Example C64_empty_case :
  aview (tlv_act 8 [0; 0; 0; 0; 0] [AMsg (OSet "tag" 1); AMsg (OSet "length" 0); AEmpty "value"]) =
    Some (Some [1; 0; 0; 0; 0], [(true, true, 1, 8); (true, true, 9, 24); (true, true, 25, 24)], Ok false, [None; None]).
Proof. vm_compute. reflexivity. Qed.

(** both sides of C64_parse: a message that can be read, and one that cannot *)
Example C64_parse_meets : (forall f, In f tlv_fields -> tlv_types f = FComposite -> tlv_arrays f <> None) /\
  (forall es e, run (structure tlv) tlv_types no_constants 1 40 (mkBuffer 1 [1; 0; 2; 7; 8]) es -> In e es -> tlv_types (e_fld e) = FComposite -> e_first e mod 8 = 1) /\
  exists es, complete (structure tlv) tlv_types no_constants 1 40 (mkBuffer 1 [1; 0; 2; 7; 8]) es /\
    forall e t, In e es -> tlv_arrays (e_fld e) = Some t ->
      e_first e <= e_last e /\ elements (numbers 8 t) (mkBuffer 1 [1; 0; 2; 7; 8]) (e_first e) (e_last e).
Proof.
  assert (AA : forall f, In f tlv_fields -> tlv_types f = FComposite -> tlv_arrays f <> None).
  { intros f J T. cbn in J. destruct J as [<-|[<-|[<-|[]]]]; discriminate. }
  split; [exact AA|]. split; [intros es e; apply tlv_aligned|].
  destruct C37_meets as (A & SC & NO & NS & _). destruct C50_meets as (P & NL & _).
  apply (proj1 (C64_parse 20 tlv tlv_fields tlv_types no_constants tlv_arrays (numbers 8) (mkBuffer 1 [1; 0; 2; 7; 8]) 1 40 A P SC NS NL
    (numbers_types 8 ltac:(lia)) tlv_input ltac:(reflexivity) AA (tlv_aligned _ _))).
  destruct (result_exists (tlv_act 8 [1; 0; 2; 7; 8] read_two) (fun st => x_buffer (k_msg st) = Some (mkBuffer 1 [1; 0; 2; 7; 8]) /\
    valid_message (structure tlv) tlv_fields tlv_types no_constants 4 (k_msg st) = Ok true)) as (st & E & B & V); [vm_compute; split; reflexivity|].
  exists read_two, st, 4%nat. split; [exact E|]. split; [apply C64_history_meets|]. split; [rewrite B; discriminate|exact V].
Qed.
Example C64_parse_case : (exists x, verify_message (structure tlv) tlv_fields tlv_types no_constants (initialize tlv_fields (mkBuffer 1 [1; 0; 2; 7; 255]) 1 40) = Ok x /\
    structural_valid_message (structure tlv) tlv_fields tlv_types no_constants 4 x = Ok true) /\
  aview (tlv_act 8 [1; 0; 2; 7; 255] (tlv_verified ++ [ASwitch 0 "value"; ANext 0; ANext 0])) =
    Some (None, [(true, true, 1, 8); (true, true, 9, 24); (true, false, 25, 40)], Ok false, [Some (true, false, 40); None]) /\
  tlv_act 8 [1; 0; 2; 7; 255] (tlv_verified ++ [ASwitch 0 "value"; ANext 0; ANext 0; AUpdate 0 "value"]) = Err "precondition".
Proof. split; [eexists; split; vm_compute; reflexivity|]. split; vm_compute; reflexivity. Qed.

(** elements of 16 bits in a field of 24 bits, and an invalid element *)
Example C64_stuck_meets :
  (exists st, tlv_act 16 [1; 0; 3; 7; 8; 9] (tlv_verified ++ [ASwitch 0 "value"]) = Ok st /\ exists t c,
    k_seqs st 0%nat = Some (t, c) /\ ScalarSeq.buf c <> None /\ (ScalarSeq.last c - ScalarSeq.first c + 1) mod a_size (numbers 16 t) <> 0) /\
  (exists st, tlv_act 8 [1; 0; 2; 255; 7] (tlv_verified ++ [ASwitch 0 "value"; ANext 0]) = Ok st /\ exists t c,
    k_seqs st 0%nat = Some (t, c) /\ ScalarSeq.buf c <> None /\ ScalarSeq.state_valid c = false).
Proof.
  split; apply result_exists; vm_compute; do 2 eexists; (split; [reflexivity|split; [discriminate|]]); [discriminate|reflexivity].
Qed.

(** ** What does not hold *)

(** Update_<Field> compares bounds only: the sequence may have the buffer of another message.
    The context then has this buffer, but the values of the fields of the former one. *)
Definition own : message := mkMessage
  [ lk INITIAL "kind" ETrue None None;
    lk "kind" "length" ETrue None None;
    lk "length" "data" ETrue (Some (EAss OMul [EName (NVar "length") false; ENum 8])) None;
    lk "data" FINAL ETrue None None ] ["kind"; "length"; "data"] [].
Definition own_fields : list field := ["kind"; "length"; "data"].
Definition own_types (f : field) : ftype := if String.eqb f "data" then FComposite else FScalar 8 (fun _ => true).
Lemma own_accepted : accepted 20 own own_fields own_types no_constants.
Proof.
  constructor; [reflexivity|no_final| |unique_source].
  intros f size vd. unfold own_types. destruct (String.eqb f "data"); [discriminate|]. intros E. injection E as <- <-. lia.
Qed.
Theorem C64_foreign_refuted : exists n m fields types constants atype b1 b2 last f os,
  accepted n m fields types constants /\ scoped (structure m) fields /\ no_overlay (structure m) /\ no_own_size (structure m) types /\
  input b1 1 last /\ input b2 1 last /\
  let arrays := fun g => if String.eqb g f then Some "t" else None in
  array_types types arrays (fun _ => atype) /\ (forall o, In o os -> atyped fields types arrays o) /\
  exists st1, act_all (structure m) fields types constants arrays (fun _ => atype) (start fields b1 1 last) os = Ok st1 /\
  exists st2, act_all (structure m) fields types constants arrays (fun _ => atype) (start fields b2 1 last) os = Ok st2 /\
  exists c2, k_seqs st2 0%nat = Some ("t", c2) /\
  update_pre (structure m) fields types constants (k_msg st1) f c2 = Ok true /\
  exists r, update (k_msg st1) f c2 = Ok r /\ let x := fst r in
  valid_message (structure m) fields types constants 4 x = Ok true /\ get_field x "kind" = Ok 5 /\
  x_buffer x = Some b2 /\ b_data b2 = [6; 2; 9; 9].
Proof.
  exists 20%nat, own, own_fields, own_types, no_constants, (mkArray 8 (fun _ => true)), (mkBuffer 1 [5; 2; 7; 8]), (mkBuffer 1 [6; 2; 9; 9]), 32, "data",
    [AMsg (OVerify "kind"); AMsg (OVerify "length"); AMsg (OVerify "data"); ASwitch 0 "data"; ANext 0; ANext 0].
  split; [apply own_accepted|]. split; [scope|].
  split; [intros l I; repeat (destruct I as [<-|I]; [reflexivity|]); destruct I|].
  split; [intros l I _ J; repeat (destruct I as [<-|I]; [cbn in J; decompose [or] J; try discriminate; try contradiction|]); destruct I|].
  split; [split; [split; [cbn; lia|]|split; [lia|reflexivity]]; intros x I; cbn in I; decompose [or] I; subst; try lia; contradiction|].
  split; [split; [split; [cbn; lia|]|split; [lia|reflexivity]]; intros x I; cbn in I; decompose [or] I; subst; try lia; contradiction|].
  cbn zeta. split.
  { split; [|intros t; cbn; lia]. intros f t. unfold own_types. destruct (String.eqb f "data"); [reflexivity|discriminate]. }
  split.
  { intros o J. cbn in J. repeat (destruct J as [<-|J]; [cbn; try exact Logic.I; unfold typed; cbn; tauto|]). destruct J. }
  match goal with |- exists st1, ?a = Ok st1 /\ exists st2, ?b = Ok st2 /\ _ => set (r1 := a); set (r2 := b) end.
  assert (X : match r1, r2 with
    | Ok st1, Ok st2 => match k_seqs st2 0%nat with
      | Some (t, c2) => t = "t" /\ update_pre (structure own) own_fields own_types no_constants (k_msg st1) "data" c2 = Ok true /\
        match update (k_msg st1) "data" c2 with
        | Ok r => valid_message (structure own) own_fields own_types no_constants 4 (fst r) = Ok true /\ get_field (fst r) "kind" = Ok 5 /\
            x_buffer (fst r) = Some (mkBuffer 1 [6; 2; 9; 9])
        | Err _ => False end
      | None => False end
    | _, _ => False end) by (vm_compute; repeat split; reflexivity).
  destruct r1 as [st1|]; [|destruct X]. destruct r2 as [st2|]; [|destruct X]. exists st1. split; [reflexivity|]. exists st2. split; [reflexivity|].
  destruct (k_seqs st2 0%nat) as [[t c2]|]; [|destruct X]. destruct X as (-> & X1 & X2). exists c2. split; [reflexivity|]. split; [exact X1|].
  destruct (update (k_msg st1) "data" c2) as [r|]; [|destruct X2]. exists r. split; [reflexivity|]. cbn zeta. destruct X2 as (Y1 & Y2 & Y3). auto.
Qed.

Print Assumptions C64_history.
Print Assumptions C64_valid_message.
Print Assumptions C64_total.
Print Assumptions C64_write.
Print Assumptions C64_parse.
Print Assumptions C64_stuck.
Print Assumptions C64_foreign_refuted.
