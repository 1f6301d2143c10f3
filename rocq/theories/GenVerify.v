(** Verify keeps the invariant, and Verify_Message finds all there is to find. *)
From Coq Require Import String List ZArith Bool Lia Arith.
From Verif Require Import Base Expr ExprEval ExprMore MsgGraph MsgGraphFacts P_MsgGraph
  AdaTypes AdaBuffer AdaBufferFacts P_AdaTypes GenCode GenSpec GenFacts GenRun GenInv.
Import ListNotations.
Local Open Scope string_scope.
Local Open Scope list_scope.
Local Open Scope Z_scope.
Local Notation length := List.length.

Lemma field_last_inv s fields types constants x f l : field_last s fields types constants x f = Ok l ->
  exists a z, field_first s fields types constants x f = Ok a /\ field_size s fields types constants x f = Ok z /\ l = a + z - 1.
Proof.
  unfold field_last. intros E. dbind E a E1. dbind E z E2. exists a, z. split; [auto|]. split; [auto|].
  unfold bit_index in E. destruct (_ && _) in E; [|discriminate]. apply Ok_inj in E. auto.
Qed.

Lemma upd_same g f c : upd g f c f = c.
Proof. unfold upd. now rewrite String.eqb_refl. Qed.
Lemma upd_other g f c f' : f' <> f -> upd g f c f' = g f'.
Proof. intros N. unfold upd. destruct (String.eqb_spec f' f); [contradiction|reflexivity]. Qed.

Section Verify.
  Context (s : list link) (fields : list field) (types : field -> ftype) (constants : name -> option Z).
  Local Notation run F L := (run s types constants F L).
  Local Notation step F L := (step s types constants F L).
  Local Notation place F L := (place s types constants F L).
  Local Notation holds F L := (holds constants F L).
  Local Notation leads_on F L := (leads_on s constants F L).
  Local Notation content := (content types).
  Local Notation env_of F L := (env_of constants F L).
  Local Notation look := (look fields types constants).
  Local Notation look_val := (look_val s fields types constants).
  Local Notation composite := (composite fields types).
  Local Notation Inv := (Inv s fields types constants).
  Local Notation rest_ok := (rest_ok s fields constants).
  Local Notation next := (next s constants).
  Local Notation matches := (matches fields types).
  Local Notation "x @ f" := (x_cursors x f) (at level 9, f at level 9).

  Context (W : wf s fields) (TS : forall f size vd, types f = FScalar size vd -> 1 <= size <= 64)
    (DET : deterministic s types constants).

  Lemma in_range x b a l : bounds_ok x b -> x_first x <= a -> l <= x_last x -> in_buf b a l.
  Proof.
    intros (_ & _ & _ & _ & B1 & B2 & _) A B. unfold in_buf, First_Bit_Index, Last_Bit_Index.
    pose proof (byte_index_bounds (x_first x)). pose proof (byte_index_bounds (x_last x)). lia.
  Qed.

  Lemma env_last F L es e n : ~ In (e_fld e) (map e_fld es) -> name_id n = e_fld e ->
    env_of F L (es ++ [e]) n = VInt match n with
                       | NVar _ => e_val e
                       | NAttr AFirst _ => e_first e
                       | NAttr ALast _ => e_last e
                       | NAttr ASize _ => e_last e - e_first e + 1
                       | NAttr ALength _ => 0
                       end.
  Proof.
    intros N E. unfold GenSpec.env_of.
    assert (X : find (fun e' => String.eqb (e_fld e') (e_fld e)) (es ++ [e]) = Some e).
    { rewrite find_app_, find_none_in.
      - cbn. now rewrite String.eqb_refl.
      - intros x I. apply String.eqb_neq. intros Q. apply N. rewrite <- Q. now apply in_map. }
    destruct n as [id|a id]; cbn [name_id] in E; subst id; now rewrite X.
  Qed.

  (** ** Field_Condition *)
  Section FieldCond.
    Context (x : context) (es : list entry) (f : field) (a z v sz : Z).
    Local Notation e := (mkEntry f a (a + z - 1) v).
    Hypothesis IF : In f fields.
    Hypothesis FR : ~ In f (map e_fld es).
    Hypothesis OTH : forall l n w, In l s -> source l = f -> In n (names (condition l)) -> name_id n <> f ->
      look x n = Ok w -> env_of (x_first x) (x_last x) es n = w.
    Hypothesis OWN : structural_valid (x @ f) = true -> c_first (x @ f) = a.
    Hypothesis SZ : sz = z \/ forall l, In l s -> source l = f -> ~ In (NAttr ASize f) (names (condition l)).
    Hypothesis LST : forall q, field_last s fields types constants x f = Ok q -> q = a + z - 1.

    Lemma look_val_sound l n w : In l s -> source l = f -> In n (names (condition l)) ->
      look_val x f v sz n = Ok w -> env_of (x_first x) (x_last x) (es ++ [e]) n = w.
    Proof.
      intros I S J E. destruct (String.eqb_spec (name_id n) f) as [EN|NE].
      - assert (M : memf f fields = true) by now apply memf_iff.
        rewrite (env_last _ _ es e n FR EN). destruct n as [id|at' id]; cbn [name_id] in EN; subst id.
        + cbn [GenCode.look_val] in E. rewrite String.eqb_refl in E. destruct (types f) eqn:T.
          * apply Ok_inj in E. auto.
          * unfold GenCode.look in E. rewrite M, T in E. discriminate.
        + destruct at'; cbn [GenCode.look_val] in E; rewrite ?String.eqb_refl in E.
          * apply Ok_inj in E. subst w. destruct SZ as [->|X]; [cbn [e_last e_first]; f_equal; lia|]. exfalso. apply (X l I S J).
          * unfold GenCode.look in E. rewrite M in E. destruct (structural_valid _); discriminate.
          * unfold GenCode.look in E. rewrite M in E. destruct (structural_valid _) eqn:V in E; [|discriminate].
            apply Ok_inj in E. subst w. now rewrite (OWN V).
          * dbind E q EQ. apply Ok_inj in E. subst w. now rewrite (LST q EQ).
      - assert (E' : look x n = Ok w).
        { destruct n as [id|[] id]; cbn [GenCode.look_val name_id] in *; auto;
            destruct (String.eqb_spec id f); try contradiction; auto. }
        rewrite env_prefix. 2: { cbn. intuition. }
        eapply OTH; eauto.
    Qed.
    Lemma field_cond_true : field_cond s fields types constants x f v sz = Ok true -> leads_on (x_first x) (x_last x) (es ++ [e]).
    Proof.
      unfold field_cond. intros E. apply or_all_true, in_map_iff in E as (l & E & I). apply in_outgoing in I as [I S].
      exists l. split; [exact I|]. split; [rewrite last_fld_snoc; exact S|].
      unfold GenSpec.holds. eapply cond_sound; [|exact E]. intros n w J. eapply look_val_sound; eauto.
    Qed.
    Lemma field_cond_false : field_cond s fields types constants x f v sz = Ok false -> ~ leads_on (x_first x) (x_last x) (es ++ [e]).
    Proof.
      unfold field_cond. intros E (l & I & S & H). rewrite last_fld_snoc in S. cbn [e_fld] in S.
      assert (X : cond (look_val x f v sz) l = Ok false).
      { apply (or_all_false _ E), in_map_iff. exists l. split; [reflexivity|]. now apply in_outgoing. }
      assert (Y : eval_sc (env_of (x_first x) (x_last x) (es ++ [e])) (condition l) = Some (VBool false)).
      { eapply cond_sound; [|exact X]. intros n w J. eapply look_val_sound; eauto. }
      unfold GenSpec.holds in H. congruence.
    Qed.
  End FieldCond.

  (** ** Entering a field *)

  (** all that has to hold once the cursor of the new field is set *)
  Lemma enter x b es e n :
    run (x_first x) (x_last x) b (es ++ [e]) -> bounds_ok x b ->
    (forall pre e' post, es ++ [e] = pre ++ e' :: post -> matches (x @ (e_fld e')) (last_fld pre) e') ->
    (forall f, In f fields -> ~ In f (map e_fld (es ++ [e])) -> rest_ok x es f) ->
    x_message_last x = e_last e ->
    successor s fields types constants x (e_fld e) = Ok n ->
    Inv (set_cursor x n (no_cursor S_Invalid (e_fld e))) b (es ++ [e]) /\ next (x_first x) (x_last x) (es ++ [e]) n /\
    ~ In n (map e_fld (es ++ [e])).
  Proof.
    intros R B C RE ML SU.
    pose proof (run_snoc_inv _ _ _ _ _ _ _ _ R) as [R0 (P & CT & LD)].
    assert (CV : covers fields x (es ++ [e])).
    { intros f IF V. destruct (in_dec String.string_dec f (map e_fld (es ++ [e]))) as [J|J].
      - apply in_map_iff in J as (e' & <- & J). exists e'. apply in_split in J as (pre & post & E).
        pose proof (C pre e' post E) as (_ & _ & _ & Q1 & Q2 & _ & Q3). rewrite E. split; [apply in_or_app; right; now left|]. auto.
      - pose proof (RE f IF J) as [X _]. congruence. }
    assert (NX : next (x_first x) (x_last x) (es ++ [e]) n).
    { unfold successor in SU. apply if_elsif_ok in SU as [(w & J & ->)|[_ J]].
      - apply in_map_iff in J as (l & J & I). injection J as J1 J2. apply in_outgoing in I as [I S].
        exists l. split; [exact I|]. split; [rewrite last_fld_snoc; exact S|]. split; [exact J2|].
        eapply cond_holds; [|exact J1]. eapply covers_sees; eauto.
      - exfalso. destruct LD as (l & I & S & H). rewrite last_fld_snoc in S.
        assert (X : cond (look x) l = Ok false).
        { apply (J _ (Ok (target l))). apply in_map_iff. exists l. split; [reflexivity|]. now apply in_outgoing. }
        revert H. eapply cond_not_holds; [|exact X]. eapply covers_sees; eauto. }
    assert (NN : ~ In n (map e_fld (es ++ [e]))).
    { destruct NX as (l & I & S & T & _). rewrite <- T. destruct (wf_target _ _ W l I) as [TF|TI].
      - rewrite TF. intros J. apply in_map_iff in J as (e' & E' & J).
        apply (run_in_fields s fields types constants W _ _ b _ e' R) in J. rewrite E' in J. now apply (wf_final _ _ W).
      - apply (run_fresh s fields types constants W _ _ b _ (target l) R). rewrite <- S. now apply (wf_rank _ _ W). }
    split; [|split; [exact NX|exact NN]].
    constructor.
    - exact B.
    - exact R.
    - intros pre e' post E. cbn [set_cursor x_cursors]. rewrite upd_other; [eauto|].
      intros Q. apply NN. rewrite <- Q, E, map_app. apply in_or_app. right. now left.
    - intros f IF J. unfold GenInv.rest_ok. cbn [set_cursor x_cursors x_first x_last].
      destruct (String.eqb_spec f n) as [->|NE].
      + rewrite upd_same. split; [reflexivity|]. right. split; [now rewrite last_fld_snoc|]. now left.
      + rewrite upd_other by exact NE. destruct (RE f IF J) as [V [PF|[PL NXT]]]; (split; [exact V|]); [now left|exfalso].
        assert (FE : f = e_fld e).
        { destruct P as (l & z & I & S & T & N & H & _). destruct NXT as [(l' & I' & S' & T' & H')|[-> ->]].
          - assert (X : l' = l) by (eapply (holds_unique s types constants); eauto). congruence.
          - rewrite <- T. symmetry. apply (wf_from_initial _ _ W l I); [exact S|congruence]. }
        apply J. rewrite map_app, FE. apply in_or_app. right. now left.
    - cbn [set_cursor x_message_last x_first]. rewrite map_app. cbn [map]. rewrite last_snoc. exact ML.
  Qed.

  (** a field that is next does not belong to what was found *)
  Lemma next_fresh x b es f : Inv x b es -> In f fields -> next (x_first x) (x_last x) es f -> ~ In f (map e_fld es).
  Proof.
    intros I IF (l & IL & S & T & _). apply (run_fresh s fields types constants W _ _ b _ f (i_run _ _ _ _ _ _ _ I)).
    rewrite <- S, <- T. apply (wf_rank _ _ W l IL). now rewrite T.
  Qed.

  Lemma inv_last_cursor x b es : Inv x b es -> es <> [] -> structural_valid (x @ (last_fld es)) = true /\
    (composite (last_fld es) = false -> valid (x @ (last_fld es)) = true) /\ c_last (x @ (last_fld es)) = end_bit (x_first x) es.
  Proof.
    intros I N. destruct (exists_last N) as (es' & e & ->). rewrite last_fld_snoc, end_bit_snoc.
    pose proof (i_cur _ _ _ _ _ _ _ I es' e [] eq_refl) as (A & B & _ & _ & C & _). auto.
  Qed.

  (** the field may be read now *)
  Lemma pending x b es f : Inv x b es -> In f fields -> invalid (x @ f) = true -> valid_predecessor s fields types x f = true ->
    ~ In f (map e_fld es) /\ c_pred (x @ f) = last_fld es.
  Proof.
    intros I IF IV VP.
    assert (N : ~ In f (map e_fld es)).
    { intros J. apply in_map_iff in J as (e & <- & J). apply in_split in J as (pre & post & E).
      pose proof (i_cur _ _ _ _ _ _ _ I pre e post E) as (A & _). unfold structural_valid, invalid in *.
      destruct (c_state _); discriminate. }
    split; [exact N|]. destruct (i_rest _ _ _ _ _ _ _ I f IF N) as [_ [PF|[PL _]]]; [exfalso|exact PL].
    unfold valid_predecessor in VP. apply existsb_exists in VP as (p & J & E). apply andb_true_iff in E as [_ E].
    apply String.eqb_eq in E. rewrite PF in E. subst p.
    unfold direct_predecessors in J. apply (unique_In String.eqb String.eqb_eq), in_map_iff in J as (l & S & J). apply in_incoming in J as [J _].
    destruct (wf_source _ _ W l J) as [X|X]; rewrite S in X; [discriminate X|]. now apply (wf_final _ _ W).
  Qed.

  Lemma inv_fail x b es f st : Inv x b es -> ~ In f (map e_fld es) -> st = S_Invalid \/ st = S_Incomplete ->
    Inv (set_cursor x f (no_cursor st FINAL)) b es.
  Proof.
    intros I N ST. destruct I as [B R C RE ML]. constructor; auto.
    - intros pre e post E. cbn [set_cursor x_cursors]. rewrite upd_other; [eauto|].
      intros Q. apply N. rewrite <- Q, E, map_app. apply in_or_app. right. now left.
    - intros g IG J. unfold GenInv.rest_ok. cbn [set_cursor x_cursors x_first x_last].
      destruct (String.eqb_spec g f) as [->|NE].
      + rewrite upd_same. split; [|now left]. destruct ST as [->| ->]; reflexivity.
      + rewrite upd_other by exact NE. exact (RE g IG J).
  Qed.

  Definition stuck F L b es : Prop := forall e, ~ step F L b es e.
  (** a next field is marked as such unless nothing more can be found *)
  Definition live (x : context) (b : buffer) (es : list entry) : Prop :=
    stuck (x_first x) (x_last x) b es \/
    forall f, In f fields -> next (x_first x) (x_last x) es f -> c_pred (x @ f) = last_fld es.

  (** a field that is marked as incomplete is next and cannot be found *)
  Definition inc (x : context) (b : buffer) (es : list entry) : Prop :=
    forall f, In f fields -> incomplete x f = true ->
      stuck (x_first x) (x_last x) b es /\ next (x_first x) (x_last x) es f.

  Lemma suff_inv x f : forall q, sufficient_buffer_length s fields types constants x f = Ok q ->
    exists a z, field_first s fields types constants x f = Ok a /\ field_size s fields types constants x f = Ok z /\
      (q = true <-> has_buffer x = true /\ 0 <= z /\ a + z < Bit_Length_Last /\ x_first x <= a /\ a + z - 1 <= x_last x).
  Proof.
    unfold sufficient_buffer_length. intros q E. dbind E z E1. dbind E a E2. dbind E av E3. exists a, z.
    split; [exact E2|]. split; [exact E1|].
    unfold available_space in E3. rewrite E2 in E3. cbn [bind] in E3. unfold bit_length in E3.
    destruct (_ && _) in E3; [|discriminate]. apply Ok_inj in E3. apply Ok_inj in E.
    rewrite <- E, !andb_true_iff, !Z.leb_le, Z.ltb_lt. intuition lia.
  Qed.

  (** What Verify does. *)
  Theorem verify_inv x b es f x' : Inv x b es -> In f fields -> verify s fields types constants x f = Ok x' ->
    exists es', Inv x' b es' /\ x_first x' = x_first x /\ x_last x' = x_last x /\
      (es' = es \/ exists e, es' = es ++ [e] /\ e_fld e = f) /\
      (live x b es -> x_last x + 1 < Bit_Length_Last ->
       live x' b es' /\ (~ In f (map e_fld es') -> next (x_first x) (x_last x) es' f -> stuck (x_first x) (x_last x) b es')) /\
      (inc x b es -> x_last x + 1 < Bit_Length_Last -> inc x' b es').
  Proof.
    intros I IF V. unfold verify in V. pose proof (i_run _ _ _ _ _ _ _ I) as R. pose proof (i_bounds _ _ _ _ _ _ _ I) as B.
    pose proof (inv_covers _ _ _ _ _ _ _ I) as CV.
    assert (HB : has_buffer x = true) by (destruct B as (BB & _); unfold has_buffer; now rewrite BB).
    assert (SE : forall l, In l s -> source l = last_fld es -> sees fields types constants x es l).
    { intros l _ _. exact (covers_sees s fields types constants W x b es l R CV). }
    assert (LA : es <> [] -> structural_valid (x @ (last_fld es)) = true -> c_last (x @ (last_fld es)) = end_bit (x_first x) es).
    { intros N _. now apply (inv_last_cursor x b es I). }
    (* nothing happens *)
    assert (SKIP : (~ In f (map e_fld es) -> next (x_first x) (x_last x) es f -> live x b es -> stuck (x_first x) (x_last x) b es) -> Ok x = Ok x' ->
      exists es', Inv x' b es' /\ x_first x' = x_first x /\ x_last x' = x_last x /\
      (es' = es \/ exists e, es' = es ++ [e] /\ e_fld e = f) /\
      (live x b es -> x_last x + 1 < Bit_Length_Last ->
       live x' b es' /\ (~ In f (map e_fld es') -> next (x_first x) (x_last x) es' f -> stuck (x_first x) (x_last x) b es')) /\
      (inc x b es -> x_last x + 1 < Bit_Length_Last -> inc x' b es')).
    { intros HS E. apply Ok_inj in E. subst x'. exists es. split; [auto|]. split; [auto|]. split; [auto|]. split; [auto|]. split; [intros LV _; auto|auto]. }
    assert (VPX : ~ In f (map e_fld es) -> next (x_first x) (x_last x) es f -> c_pred (x @ f) = last_fld es ->
                  invalid (x @ f) = true /\ valid_predecessor s fields types x f = true).
    { intros N NX PL. destruct (i_rest _ _ _ _ _ _ _ I f IF N) as [SV _]. split.
      - unfold structural_valid, invalid in *. destruct (c_state _); congruence.
      - unfold valid_predecessor. apply existsb_exists. exists (last_fld es). destruct NX as (l & IL & S & T & _). split.
        + unfold direct_predecessors. apply (unique_In String.eqb String.eqb_eq), in_map_iff. exists l. split; [exact S|]. now apply in_incoming.
        + rewrite PL, String.eqb_refl, andb_true_r. destruct (String.eqb_spec (last_fld es) INITIAL) as [|NI]; [reflexivity|].
          assert (NE : es <> []) by (intros ->; now apply NI).
          destruct (inv_last_cursor x b es I NE) as (Q1 & Q2 & _). destruct (composite (last_fld es)); auto. }
    destruct (has_buffer x && invalid (x @ f) && valid_predecessor s fields types x f) eqn:G.
    2:{ apply SKIP; [|exact V]. intros N NX [ST|LV]; [exact ST|exfalso]. specialize (LV f IF NX).
        destruct (VPX N NX LV) as [Q1 Q2]. rewrite HB, Q1, Q2 in G. discriminate. }
    apply andb_true_iff in G as [G VP]. apply andb_true_iff in G as [_ IV].
    destruct (pending x b es f I IF IV VP) as [FR PL].
    dbind V pc PC. destruct pc.
    2:{ apply SKIP; [|exact V]. intros N NX _. exfalso. revert NX. eapply path_no_link; eauto. }
    destruct (path_link s fields types constants x es f PL SE PC) as (l & IL & S & T & H).
    dbind V suff SF. destruct (suff_inv x f suff SF) as (a & z & EA & EZ & SQ).
    pose proof (place_is s fields types constants W DET x b es f R PL SE LA IF l IL S T H) as PI.
    (* failure *)
    assert (FAIL : forall st, st = S_Invalid \/ st = S_Incomplete ->
      (x_last x + 1 < Bit_Length_Last -> stuck (x_first x) (x_last x) b es) -> Ok (set_cursor x f (no_cursor st FINAL)) = Ok x' ->
      exists es', Inv x' b es' /\ x_first x' = x_first x /\ x_last x' = x_last x /\
      (es' = es \/ exists e, es' = es ++ [e] /\ e_fld e = f) /\
      (live x b es -> x_last x + 1 < Bit_Length_Last ->
       live x' b es' /\ (~ In f (map e_fld es') -> next (x_first x) (x_last x) es' f -> stuck (x_first x) (x_last x) b es')) /\
      (inc x b es -> x_last x + 1 < Bit_Length_Last -> inc x' b es')).
    { intros st ST SK E. apply Ok_inj in E. subst x'. exists es. split; [now apply inv_fail|].
      split; [auto|]. split; [auto|]. split; [auto|]. split.
      - intros LV LL. split; [left; exact (SK LL)|auto].
      - intros IX LL g IG IG2. unfold incomplete in IG2. cbn [set_cursor x_cursors x_first x_last] in *.
        destruct (String.eqb_spec g f) as [->|N].
        + split; [exact (SK LL)|]. exists l. auto.
        + rewrite upd_other in IG2 by exact N. exact (IX g IG IG2). }
    destruct suff.
    2:{ apply (FAIL S_Incomplete); [now right| |exact V]. intros LL e (P & _).
        destruct (PI _ _ _ _ _ EA EZ P) as (_ & _ & _ & A1 & A2 & A3).
        assert (X : false = true) by (apply SQ; repeat split; auto; lia). discriminate. }
    destruct (proj1 SQ eq_refl) as (_ & Z0 & AZ & FA & AL). clear SQ.
    pose proof (place_of s fields types constants W DET x b es f R PL SE LA IF l IL S T H a z EA EZ FA AL) as P.
    dbind V v EV. dbind V z' EZ'. assert (z' = z) by congruence. subst z'.
    set (e := mkEntry f a (a + z - 1) v).
    (* the value *)
    assert (CT : match types f with
                 | FScalar size vd => 0 <= v < 2 ^ size /\ (forall k, 0 <= k < size -> Z.testbit v k = bit_at b (a + z - 1 - k))
                 | FComposite => v = 0 end).
    { unfold get_field_value in EV. destruct (types f) as [size vd|] eqn:TY; [|apply Ok_inj in EV; auto].
      rewrite EA in EV. cbn [bind] in EV. dbind EV q EQ. destruct (field_last_inv _ _ _ _ _ _ _ EQ) as (a1 & z1 & Q1 & Q2 & ->).
      assert (a1 = a) by congruence. assert (z1 = z) by congruence. subst a1 z1.
      destruct B as (BB & BW & B3). rewrite BB in EV.
      destruct (size_of s fields types constants W DET x b es f R PL SE IF l IL S T H z EZ) as [K _]. rewrite TY in K. subst size.
      pose proof (TS _ _ _ TY) as TZ. assert (INB : in_buf b a (a + z - 1)).
      { apply (in_range x); auto. split; [exact BB|]. split; [exact BW|exact B3]. }
      destruct (read_field_spec z b a (a + z - 1)) as (v0 & E0 & E1 & E2); auto; try lia.
      assert (v0 = v) by congruence. subst v0. auto. }
    dbind V fc FC.
    assert (OTH : forall l n w, In l s -> source l = f -> In n (names (condition l)) -> name_id n <> f ->
      look x n = Ok w -> env_of (x_first x) (x_last x) es n = w) by (intros; eapply look_sound; eauto).
    assert (OWN : structural_valid (x @ f) = true -> c_first (x @ f) = a).
    { destruct (i_rest _ _ _ _ _ _ _ I f IF FR) as [SV _]. congruence. }
    assert (LST : forall q, field_last s fields types constants x f = Ok q -> q = a + z - 1).
    { intros q EQ. destruct (field_last_inv _ _ _ _ _ _ _ EQ) as (a1 & z1 & Q1 & Q2 & ->). congruence. }
    destruct (valid_value types f v && fc) eqn:G.
    2:{ apply (FAIL S_Invalid); [now left| |exact V]. intros _ e' (P' & C' & LD').
        destruct (PI _ _ _ _ _ EA EZ P') as (E1 & E2 & E3 & _).
        assert (EE : e' = e).
        { destruct e' as [f' a' l' v']. cbn [e_fld e_first e_last] in *. subst f' a' l'. unfold e. f_equal.
          unfold GenSpec.content in C'. cbn [e_fld e_val e_last] in C'. destruct (types f) as [size vd|] eqn:TY; [|congruence].
          destruct C' as (Q1 & Q2 & _), CT as (Q3 & Q4). pose proof (TS _ _ _ TY). apply (value_bits size); auto; [lia|].
          intros k K. rewrite Q2, Q4; auto. }
        subst e'. apply andb_false_iff in G as [G| ->].
        - unfold GenSpec.content in C'. unfold valid_value in G. cbn [e_fld e_val] in C'. unfold e in C'. cbn [e_fld e_val] in C'.
          destruct (types f); [destruct C' as (_ & _ & C'); congruence|discriminate].
        - revert LD'. eapply field_cond_false; eauto. }
    apply andb_true_iff in G as [VV ->].
    dbind V q EQ. pose proof (LST q EQ). subst q. dbind V a' EA'. assert (a' = a) by congruence. subst a'.
    dbind V n SU. apply Ok_inj in V. subst x'.
    set (x1 := set_cursor (set_message_last x (a + z - 1)) f (mkCursor (if composite f then S_Structural_Valid else S_Valid) (c_pred (x @ f)) a (a + z - 1) f v)) in *.
    assert (ST : step (x_first x) (x_last x) b es e).
    { split; [exact P|]. split.
      - unfold GenSpec.content, e. cbn [e_fld e_val e_last]. unfold valid_value in VV. destruct (types f); [|exact CT]. tauto.
      - eapply field_cond_true; eauto. }
    destruct (enter x1 b es e n) as (IN & NX & NN).
    - now constructor.
    - exact B.
    - intros pre e' post E. unfold x1. cbn [set_cursor set_message_last x_cursors].
      apply snoc_split in E as [(-> & -> & ->)|(post' & -> & E)].
      + unfold e at 1. cbn [e_fld]. rewrite upd_same. unfold GenInv.matches, e. cbn [c_pred c_first c_last c_fld c_value e_fld e_first e_last e_val].
        split; [destruct (composite f); reflexivity|]. split; [intros ->; reflexivity|]. auto.
      + rewrite upd_other; [exact (i_cur _ _ _ _ _ _ _ I pre e' post' E)|].
        intros Q. apply FR. rewrite <- Q, E, map_app. apply in_or_app. right. now left.
    - intros g IG J. assert (NG : g <> f).
      { intros ->. apply J. rewrite map_app. apply in_or_app. right. now left. }
      unfold GenInv.rest_ok, x1. cbn [set_cursor set_message_last x_cursors x_first x_last]. rewrite upd_other by exact NG.
      apply (i_rest _ _ _ _ _ _ _ I g IG). intros Q. apply J. rewrite map_app. apply in_or_app. now left.
    - reflexivity.
    - exact SU.
    - exists (es ++ [e]). split; [exact IN|]. split; [reflexivity|]. split; [reflexivity|]. split; [right; exists e; auto|].
      split; [intros _ _; split|].
      + right. intros g IG NXG. cbn [set_cursor x_cursors x_first x_last] in *.
        assert (G : g = n).
        { destruct NX as (l1 & I1 & S1 & T1 & H1), NXG as (l2 & I2 & S2 & T2 & H2).
          assert (X : l1 = l2); [|congruence].
          apply (holds_unique s types constants (x_first x) (x_last x) DET b (es ++ [e]) l1 l2); auto. now constructor. }
        subst g. rewrite upd_same. now rewrite last_fld_snoc.
      + intros J. exfalso. apply J. rewrite map_app. apply in_or_app. right. now left.
      + intros IX _ g IG IG2. exfalso. unfold incomplete in IG2. cbn [set_cursor set_message_last x_cursors] in IG2.
        destruct (String.eqb_spec g n) as [->|N]; [rewrite upd_same in IG2; discriminate|]. rewrite upd_other in IG2 by exact N.
        unfold x1 in IG2. cbn [set_cursor set_message_last x_cursors] in IG2.
        destruct (String.eqb_spec g f) as [->|N2].
        * rewrite upd_same in IG2. cbn [c_state] in IG2. destruct (composite f); discriminate.
        * rewrite upd_other in IG2 by exact N2. destruct (IX g IG IG2) as [SK _]. now apply (SK e).
  Qed.
End Verify.
