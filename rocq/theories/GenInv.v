(** The invariant of the generated context and its preservation. *)
From Coq Require Import String List ZArith Bool Lia Arith.
From Verif Require Import Base Expr ExprEval ExprMore MsgGraph MsgGraphFacts P_MsgGraph
  AdaTypes AdaBuffer AdaBufferFacts P_AdaTypes GenCode GenSpec GenFacts GenRun.
Import ListNotations.
Local Open Scope string_scope.
Local Open Scope list_scope.
Local Open Scope Z_scope.
Local Notation length := List.length.

Section Inv.
  Context (s : list link) (fields : list field) (types : field -> ftype) (constants : name -> option Z).
  Local Notation run F L := (run s types constants F L).
  Local Notation step F L := (step s types constants F L).
  Local Notation place F L := (place s types constants F L).
  Local Notation holds F L := (holds constants F L).
  Local Notation env_of F L := (env_of constants F L).
  Local Notation look := (look fields types constants).
  Local Notation composite := (composite fields types).
  Local Notation "x @ f" := (x_cursors x f) (at level 9, f at level 9).

  Definition bounds_ok (x : context) (b : buffer) : Prop :=
    x_buffer x = Some b /\ wf_buf b /\ x_buffer_first x = b_first b /\ x_buffer_last x = b_last b /\
    b_first b <= Byte_Index (x_first x) /\ Byte_Index (x_last x) <= b_last b /\
    1 <= x_first x /\ x_first x <= x_last x /\ x_last x < Bit_Length_Last.

  Definition matches (c : cursor) (p : field) (e : entry) : Prop :=
    structural_valid c = true /\ (composite (e_fld e) = false -> valid c = true) /\
    c_pred c = p /\ c_first c = e_first e /\ c_last c = e_last e /\ c_fld c = e_fld e /\ c_value c = e_val e.

  Definition next (F L : Z) (es : list entry) (f : field) : Prop :=
    exists l, In l s /\ source l = last_fld es /\ target l = f /\ holds F L es l.

  (** a field that is not (yet) found *)
  Definition rest_ok (x : context) (es : list entry) (f : field) : Prop :=
    structural_valid (x @ f) = false /\
    (c_pred (x @ f) = FINAL \/
     c_pred (x @ f) = last_fld es /\ (next (x_first x) (x_last x) es f \/ es = [] /\ f = first_field fields)).

  Record Inv (x : context) (b : buffer) (es : list entry) : Prop := {
    i_bounds : bounds_ok x b;
    i_run : run (x_first x) (x_last x) b es;
    i_cur : forall pre e post, es = pre ++ e :: post -> matches (x @ (e_fld e)) (last_fld pre) e;
    i_rest : forall f, In f fields -> ~ In f (map e_fld es) -> rest_ok x es f;
    i_last : x_message_last x = List.last (map e_last es) (x_first x)
  }.

  Context (W : wf s fields) (TS : forall f size vd, types f = FScalar size vd -> 1 <= size <= 64)
    (DET : deterministic s types constants).

  (** ** Lookup *)

  (** every valid cursor shows an entry of [es] *)
  Definition covers (x : context) (es : list entry) : Prop :=
    forall f, In f fields -> structural_valid (x @ f) = true ->
      exists e, In e es /\ e_fld e = f /\ c_first (x @ f) = e_first e /\ c_last (x @ f) = e_last e /\ c_value (x @ f) = e_val e.

  Lemma inv_covers x b es : Inv x b es -> covers x es.
  Proof.
    intros I f IF V. destruct (in_dec String.string_dec f (map e_fld es)) as [J|J].
    - apply in_map_iff in J as (e & <- & J). exists e. apply in_split in J as (pre & post & E).
      pose proof (i_cur _ _ _ I pre e post E) as (_ & _ & _ & A & B & _ & C). subst es.
      split; [apply in_or_app; right; now left|]. auto.
    - pose proof (i_rest _ _ _ I f IF J) as [X _]. congruence.
  Qed.

  Lemma look_sound x b es n v : run (x_first x) (x_last x) b es -> covers x es -> look x n = Ok v ->
    env_of (x_first x) (x_last x) es n = v.
  Proof.
    intros R C E. unfold GenCode.look in E. destruct n as [id|a id]; destruct (memf id fields) eqn:M.
    - apply memf_iff in M. destruct (types id) eqn:T; [|discriminate].
      destruct (structural_valid (x @ id)) eqn:V; [|discriminate].
      destruct (String.eqb (c_fld (x @ id)) id); [|discriminate]. apply Ok_inj in E. subst v.
      destruct (C id M V) as (e & I & EF & _ & _ & ->). rewrite (env_entry s fields types constants W _ _ b es e (NVar id) R I); auto.
    - assert (NF : find (fun e => String.eqb (e_fld e) id) es = None).
      { apply find_none_in. intros e I. apply String.eqb_neq. intros <-.
        apply (run_in_fields s fields types constants W _ _ b es e R) in I. apply memf_iff in I. congruence. }
      unfold GenSpec.env_of. rewrite NF. destruct (constants (NVar id)); [|discriminate]. apply Ok_inj in E. auto.
    - apply memf_iff in M. destruct (structural_valid (x @ id)) eqn:V; [|discriminate].
      destruct (C id M V) as (e & I & EF & E1 & E2 & _).
      rewrite (env_entry s fields types constants W _ _ b es e (NAttr a id) R I); auto.
      destruct a; [|discriminate| |]; apply Ok_inj in E; subst v; rewrite ?E1, ?E2; reflexivity.
    - assert (NF : find (fun e => String.eqb (e_fld e) id) es = None).
      { apply find_none_in. intros e I. apply String.eqb_neq. intros <-.
        apply (run_in_fields s fields types constants W _ _ b es e R) in I. apply memf_iff in I. congruence. }
      unfold GenSpec.env_of. rewrite NF. destruct (String.eqb id "message").
      + destruct a; try discriminate; apply Ok_inj in E; now subst.
      + destruct (constants (NAttr a id)); [|discriminate]. apply Ok_inj in E. auto.
  Qed.

  (** what is computed for the link [l] in [x] is right after [es] *)
  Definition sees (x : context) (es : list entry) (l : link) : Prop :=
    forall e n v, In e (condition l :: opt_expr (lsize l) ++ opt_expr (lfirst l)) -> In n (names e) ->
      look x n = Ok v -> env_of (x_first x) (x_last x) es n = v.

  Lemma covers_sees x b es l : run (x_first x) (x_last x) b es -> covers x es -> sees x es l.
  Proof. intros R C e n v _ _ E. eapply look_sound; eauto. Qed.

  Lemma cond_sound lk (g : env) l bv : (forall n v, In n (names (condition l)) -> lk n = Ok v -> g n = v) ->
    cond lk l = Ok bv -> eval_sc g (condition l) = Some (VBool bv).
  Proof.
    intros G E. unfold cond in E. dbind E v E1. apply (aeval_sound in_U64 lk g) in E1; [|exact G].
    destruct v; [discriminate|]. apply Ok_inj in E. now subst.
  Qed.
  Lemma cond_sees x es l bv : sees x es l -> cond (look x) l = Ok bv ->
    eval_sc (env_of (x_first x) (x_last x) es) (condition l) = Some (VBool bv).
  Proof. intros SE. apply cond_sound. intros n v I. apply (SE (condition l)); [now left|exact I]. Qed.
  Lemma cond_holds x es l : sees x es l -> cond (look x) l = Ok true -> holds (x_first x) (x_last x) es l.
  Proof. intros SE E. exact (cond_sees x es l true SE E). Qed.
  Lemma cond_not_holds x es l : sees x es l -> cond (look x) l = Ok false -> ~ holds (x_first x) (x_last x) es l.
  Proof. intros SE E H. pose proof (cond_sees x es l false SE E) as X. unfold GenSpec.holds in H. congruence. Qed.
  Lemma size_sees x es l z : sees x es l -> int_expr (look x) (lsize l) = Ok z ->
    means constants (x_first x) (x_last x) es (lsize l) z.
  Proof.
    intros SE E. unfold int_expr in E. destruct (lsize l) as [e|] eqn:LS; [|discriminate]. dbind E v E1.
    apply (aeval_sound in_S64 (look x) (env_of (x_first x) (x_last x) es)) in E1.
    - exists e. split; [reflexivity|]. destruct v; [|discriminate]. apply Ok_inj in E. now subst.
    - intros n w I. apply (SE e); [|exact I]. right. apply in_or_app. left. rewrite LS. now left.
  Qed.
  Lemma first_sees x es l e z : sees x es l -> lfirst l = Some e -> int_expr (look x) (Some e) = Ok z ->
    means constants (x_first x) (x_last x) es (Some e) z.
  Proof.
    intros SE LF E. unfold int_expr in E. dbind E v E1.
    apply (aeval_sound in_S64 (look x) (env_of (x_first x) (x_last x) es)) in E1.
    - exists e. split; [reflexivity|]. destruct v; [|discriminate]. apply Ok_inj in E. now subst.
    - intros n w I. apply (SE e); [|exact I]. right. apply in_or_app. right. rewrite LF. now left.
  Qed.

  Lemma in_links_to p f l : In l (links_to s p f) <-> In l s /\ source l = p /\ target l = f.
  Proof. unfold links_to. rewrite filter_In, in_outgoing, String.eqb_eq. tauto. Qed.

  (** ** The place of a field *)
  Section Place.
    Context (x : context) (b : buffer) (es : list entry) (f : field).
    Local Notation F := (x_first x).
    Local Notation L := (x_last x).
    Hypothesis R : run F L b es.
    Hypothesis P : c_pred (x @ f) = last_fld es.
    Hypothesis SE : forall l, In l s -> source l = last_fld es -> sees x es l.
    Hypothesis LA : es <> [] -> structural_valid (x @ (last_fld es)) = true -> c_last (x @ (last_fld es)) = end_bit F es.
    Hypothesis IF : In f fields.

    Lemma path_link : path_condition s fields types constants x f = Ok true ->
      exists l, In l s /\ source l = last_fld es /\ target l = f /\ holds F L es l.
    Proof.
      unfold path_condition. intros E. apply or_all_true, in_map_iff in E as (l & E & I). apply in_links_to in I as (I & S & T).
      rewrite P in S. exists l. split; [exact I|]. split; [exact S|]. split; [exact T|]. eapply cond_holds; eauto.
    Qed.
    Lemma path_no_link : path_condition s fields types constants x f = Ok false -> ~ next F L es f.
    Proof.
      unfold path_condition. intros E (l & I & S & T & H).
      assert (X : cond (look x) l = Ok false).
      { apply (or_all_false _ E). apply in_map_iff. exists l. split; [reflexivity|]. apply in_links_to. rewrite P. auto. }
      eapply cond_not_holds; eauto.
    Qed.

    Context (l : link).
    Hypothesis (I : In l s) (S : source l = last_fld es) (T : target l = f) (H : holds F L es l).

    Lemma f_not_final : f <> FINAL.
    Proof. intros ->. now apply (wf_final _ _ W). Qed.
    Lemma first_of a : field_first s fields types constants x f = Ok a ->
      match lfirst l with None => a = end_bit F es + 1 | o => means constants F L es o a end /\ 1 <= a <= Bit_Length_Last.
    Proof.
      pose proof f_not_final as NF. unfold field_first. intros E.
      assert (BI : forall z, bit_index z = Ok a -> z = a /\ 1 <= a <= Bit_Length_Last).
      { intros z. unfold bit_index. destruct (Z.leb_spec 1 z); [|discriminate]. destruct (Z.leb_spec z Bit_Length_Last); [|discriminate].
        intros Q. apply Ok_inj in Q. subst. auto. }
      destruct (String.eqb_spec f (first_field fields)) as [E1|N].
      - apply BI in E as [E B]. split; [|exact B].
        assert (SI : source l = INITIAL) by (apply (wf_into_first _ _ W l I); congruence).
        rewrite (wf_first _ _ W l I SI). rewrite S in SI.
        rewrite (last_fld_nil s fields types constants W F L b es R SI). cbn. lia.
      - dbind E z E1. apply BI in E as [-> B]. split; [|exact B].
        destruct (if_elsif_ok _ _ _ E1) as [(w & J & ->)|[D _]]; [|discriminate].
        apply in_map_iff in J as (l' & J & I'). apply in_incoming in I' as [I' T'].
        injection J as J1 J2. rewrite P in J1.
        destruct (String.eqb_spec (last_fld es) (source l')) as [S'|]; [|discriminate J1].
        assert (H' : holds F L es l') by (eapply cond_holds; eauto).
        assert (X : l' = l).
        { apply (holds_unique s types constants F L DET b es l' l); auto. }
        subst l'. destruct (lfirst l) as [e|] eqn:LF.
        + eapply first_sees; eauto.
        + rewrite P in J2. destruct (structural_valid (x @ (last_fld es))) eqn:V; [|discriminate].
          apply Ok_inj in J2. rewrite <- J2. f_equal. apply LA; [|auto].
          intros ->. apply N. rewrite <- T. apply (wf_from_initial _ _ W l I); [exact S|congruence].
    Qed.
    Lemma size_of z : field_size s fields types constants x f = Ok z ->
      match types f with FScalar k _ => z = k | FComposite => means constants F L es (lsize l) z end /\ 0 <= z <= Bit_Length_Last.
    Proof.
      pose proof f_not_final as NF. unfold field_size. rewrite P. intros E.
      assert (BL : forall k, bit_length k = Ok z -> k = z /\ 0 <= z <= Bit_Length_Last).
      { intros k. unfold bit_length. destruct (Z.leb_spec 0 k); [|discriminate]. destruct (Z.leb_spec k Bit_Length_Last); [|discriminate].
        intros Q. apply Ok_inj in Q. subst. auto. }
      destruct (forallb _ _) eqn:FB in E.
      { exfalso. rewrite forallb_forall in FB. specialize (FB l (proj2 (in_outgoing s l _) (conj I S))).
        apply String.eqb_eq in FB. congruence. }
      assert (LI : In l (links_to s (last_fld es) f)) by (apply in_links_to; auto).
      destruct (types f) as [k vd|] eqn:TY.
      - destruct (links_to s (last_fld es) f); [destruct LI|].
        assert (E' : bit_length k = Ok z) by (destruct l1; exact E). apply BL in E' as [-> B]. auto.
      - destruct (links_to s (last_fld es) f) as [|l0 [|l1 ls]] eqn:LT; [destruct LI| |].
        + destruct LI as [->|[]]. dbind E k E1. apply BL in E as [-> B]. split; [|exact B]. eapply size_sees; eauto.
        + dbind E k E1. apply BL in E as [-> B]. split; [|exact B].
          destruct (if_elsif_ok _ _ _ E1) as [(w & J & ->)|[D _]]; [|discriminate].
          apply in_map_iff in J as (l' & J & I'). rewrite <- LT in I'. apply in_links_to in I' as (I' & S' & T').
          injection J as J1 J2. assert (H' : holds F L es l') by (eapply cond_holds; eauto).
          assert (X : l' = l) by (apply (holds_unique s types constants F L DET b es l' l); auto).
          subst l'. eapply size_sees; eauto.
    Qed.
    Lemma place_of a z : field_first s fields types constants x f = Ok a -> field_size s fields types constants x f = Ok z ->
      F <= a -> a + z - 1 <= L -> place F L es f a (a + z - 1).
    Proof.
      intros A Z' B C. destruct (first_of a A) as [A' _]. destruct (size_of z Z') as [K K0].
      exists l, z. split; [exact I|]. split; [exact S|]. split; [exact T|]. split; [exact f_not_final|]. split; [exact H|].
      split; [exact A'|]. split; [exact K|]. split; [lia|]. split; [reflexivity|]. auto.
    Qed.
    (** the place is the only one *)
    Lemma place_is f' a z a' z' : field_first s fields types constants x f = Ok a -> field_size s fields types constants x f = Ok z ->
      place F L es f' a' z' -> f' = f /\ a' = a /\ z' = a + z - 1 /\ F <= a /\ 0 <= z /\ a + z - 1 <= L.
    Proof.
      intros A Z' (l' & k & I' & S' & T' & N' & H' & A' & K & K0 & B & C1 & C2).
      assert (X : l' = l) by (apply (holds_unique s types constants F L DET b es l' l); auto). subst l'.
      assert (f' = f) by congruence. subst f'. rewrite H0 in K. destruct (first_of a A) as [A2 _]. destruct (size_of z Z') as [K2 K20].
      assert (M : forall o u v, means constants F L es o u -> means constants F L es o v -> u = v).
      { intros o u v (e & E & U) (e' & E' & V). congruence. }
      assert (a' = a) by (destruct (lfirst l); [eapply M; eauto|congruence]).
      assert (k = z) by (destruct (types f); [congruence|eapply M; eauto]). subst a' k. split; [congruence|]. lia.
    Qed.
  End Place.
End Inv.
