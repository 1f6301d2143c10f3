(** Initialize, sequences of Verify, Verify_Message and the validity of messages. *)
From Coq Require Import String List ZArith Bool Lia Arith.
From Verif Require Import Base Expr ExprEval ExprMore MsgGraph MsgGraphFacts P_MsgGraph
  AdaTypes AdaBuffer AdaBufferFacts P_AdaTypes GenCode GenSpec GenFacts GenRun GenInv GenVerify.
Import ListNotations.
Local Open Scope string_scope.
Local Open Scope list_scope.
Local Open Scope Z_scope.
Local Notation length := List.length.

Section Message.
  Context (s : list link) (fields : list field) (types : field -> ftype) (constants : name -> option Z).
  Local Notation run F L := (run s types constants F L).
  Local Notation step F L := (step s types constants F L).
  Local Notation place F L := (place s types constants F L).
  Local Notation complete F L := (complete s types constants F L).
  Local Notation holds F L := (holds constants F L).
  Local Notation env_of F L := (env_of constants F L).
  Local Notation look := (look fields types constants).
  Local Notation composite := (composite fields types).
  Local Notation Inv := (Inv s fields types constants).
  Local Notation next := (next s constants).
  Local Notation live := (live s fields types constants).
  Local Notation inc := (inc s fields types constants).
  Local Notation stuck := (stuck s types constants).
  Local Notation verify := (verify s fields types constants).
  Local Notation verify_all := (verify_all s fields types constants).
  Local Notation initialize := (initialize fields).
  Local Notation "x @ f" := (x_cursors x f) (at level 9, f at level 9).

  Context (W : wf s fields) (TS : forall f size vd, types f = FScalar size vd -> 1 <= size <= 64)
    (DET : deterministic s types constants).

  Lemma initialize_inv b first last : wf_buf b -> 1 <= first -> initialize_pre b first last = true ->
    Inv (initialize b first last) b [] /\ live (initialize b first last) b [].
  Proof.
    unfold initialize_pre. rewrite !andb_true_iff, !Z.leb_le, !Z.ltb_lt. intros WB F1 ((((P1 & P2) & P3) & P4) & P5). split.
    - constructor.
      + unfold bounds_ok, GenCode.initialize. cbn [x_buffer x_buffer_first x_buffer_last x_first x_last].
        split; [reflexivity|]. split; [exact WB|]. repeat (split; [first [reflexivity|assumption]|]). assumption.
      + constructor.
      + intros pre e post E. destruct pre; discriminate.
      + intros f IF _. unfold rest_ok, GenCode.initialize. cbn [x_cursors]. destruct (String.eqb_spec f (first_field fields)) as [->|N].
        * rewrite upd_same. split; [reflexivity|]. right. split; [reflexivity|]. now right.
        * rewrite upd_other by exact N. split; [reflexivity|]. now left.
      + reflexivity.
    - right. intros f IF (l & I & S & T & _). unfold GenCode.initialize. cbn [x_cursors].
      assert (E : f = first_field fields).
      { rewrite <- T. apply (wf_from_initial _ _ W l I); [exact S|]. rewrite T. intros ->. now apply (wf_final _ _ W). }
      rewrite E, upd_same. reflexivity.
  Qed.

  (** any sequence of Verify *)
  Lemma verify_all_inv fs : forall x b es x', Inv x b es -> (forall f, In f fs -> In f fields) -> verify_all x fs = Ok x' ->
    exists es', Inv x' b es' /\ x_first x' = x_first x /\ x_last x' = x_last x /\ (exists t, es' = es ++ t) /\
      (live x b es -> x_last x + 1 < Bit_Length_Last -> live x' b es') /\
      (inc x b es -> x_last x + 1 < Bit_Length_Last -> inc x' b es').
  Proof.
    induction fs as [|f fs IH]; intros x b es x' I IN V; cbn [GenCode.verify_all] in V.
    - apply Ok_inj in V. subst x'. exists es. split; [auto|]. split; [auto|]. split; [auto|]. split; [|auto]. exists []. now rewrite app_nil_r.
    - dbind V y E. destruct (verify_inv s fields types constants W TS DET x b es f y I (IN f (or_introl eq_refl)) E)
        as (es1 & I1 & F1 & L1 & EX & LV & IC).
      destruct (IH y b es1 x' I1 (fun g J => IN g (or_intror J)) V) as (es2 & I2 & F2 & L2 & (t & ->) & LV2 & IC2).
      exists (es1 ++ t). split; [auto|]. split; [congruence|]. split; [congruence|]. split.
      + destruct EX as [->|(e & -> & _)]; [eauto|]. exists (e :: t). now rewrite <- app_assoc.
      + split; intros A B; [apply LV2|apply IC2]; try (now rewrite L1); [apply LV; auto|auto].
  Qed.

  Lemma initialize_inc b first last : inc (initialize b first last) b [].
  Proof.
    intros f _ E. unfold incomplete, GenCode.initialize in E. cbn [x_cursors] in E. unfold upd in E.
    destruct (String.eqb f (first_field fields)); discriminate.
  Qed.
  Theorem incomplete_message_inv x b es : Inv x b es -> inc x b es -> incomplete_message fields x = true ->
    forall es', ~ complete (x_first x) (x_last x) b es'.
  Proof.
    intros I IC E es' CO. unfold incomplete_message in E. apply existsb_exists in E as (f & IF & E).
    destruct (IC f IF E) as [SK (l & IL & S & T & H)]. pose proof (i_run _ _ _ _ _ _ _ I) as R.
    destruct (complete_run s types constants TS _ _ DET b es' es CO R) as (t & ->). destruct t as [|e t].
    - rewrite app_nil_r in CO. destruct CO as (_ & l' & IL' & S' & T' & H').
      assert (X : l = l') by (apply (holds_unique s types constants (x_first x) (x_last x) DET b es l l'); auto).
      apply (wf_final _ _ W). congruence.
    - destruct CO as [R' _]. apply (SK e). eapply run_step; eauto.
  Qed.

  (** the fields of [es] up to those that come before [f] *)
  Lemma run_step_field F L b es e t : run F L b (es ++ e :: t) -> next F L es (e_fld e) /\ In (e_fld e) fields /\ step F L b es e.
  Proof.
    intros R. pose proof (run_step _ _ _ _ _ _ _ _ _ R) as ST. pose proof ST as ((l & z & I & S & T & N & H & _) & _).
    split; [exists l; auto|]. split; [|exact ST]. eapply run_in_fields; eauto. apply in_or_app. right. now left.
  Qed.

  (** Verify in the order of the fields *)
  Lemma verify_all_done fs : forall done x b es x', fields = done ++ fs -> Inv x b es -> live x b es -> x_last x + 1 < Bit_Length_Last ->
    (forall f, In f done -> ~ In f (map e_fld es) -> next (x_first x) (x_last x) es f -> stuck (x_first x) (x_last x) b es) ->
    verify_all x fs = Ok x' ->
    exists es', Inv x' b es' /\ x_first x' = x_first x /\ x_last x' = x_last x /\
      forall f, In f fields -> ~ In f (map e_fld es') -> next (x_first x) (x_last x) es' f -> stuck (x_first x) (x_last x) b es'.
  Proof.
    induction fs as [|f fs IH]; intros done x b es x' EF I LV LL D V; cbn [GenCode.verify_all] in V.
    - apply Ok_inj in V. subst x'. rewrite app_nil_r in EF. subst done. eauto.
    - dbind V y E. assert (IF : In f fields) by (rewrite EF; apply in_or_app; right; now left).
      destruct (verify_inv s fields types constants W TS DET x b es f y I IF E) as (es1 & I1 & F1 & L1 & EX & LV1 & _).
      destruct (LV1 LV LL) as [LV2 DF].
      destruct (IH (done ++ [f]) y b es1 x') as (es2 & I2 & F2 & L2 & D2); auto.
      + now rewrite <- app_assoc.
      + now rewrite L1.
      + rewrite F1, L1. intros g J N NX. apply in_app_or in J as [J|[<-|[]]]; [|auto].
        destruct EX as [->|(e & -> & EE)]; [eauto|exfalso].
        destruct NX as (l & IL & S & T & _). rewrite last_fld_snoc in S.
        assert (IG : In g fields) by (rewrite EF; apply in_or_app; now left).
        assert (K : (rank fields (source l) < rank fields (target l))%nat) by (apply (wf_rank _ _ W l IL); now rewrite T).
        rewrite S, T, EE in K.
        pose proof (wf_nodup _ _ W) as ND. rewrite EF in ND, K.
        apply (rank_after done f fs g) in ND as RA. rewrite (rank_at done f fs) in K.
        * apply RA in K. apply (NoDup_app_disjoint _ _ g ND J). now right.
        * intros Q. apply (NoDup_app_disjoint _ _ f ND Q). now left.
      + exists es2. rewrite F1, L1 in *. split; [auto|]. split; [congruence|]. split; [congruence|auto].
  Qed.
  Theorem verify_message_inv b first last x' : wf_buf b -> 1 <= first -> initialize_pre b first last = true -> last + 1 < Bit_Length_Last ->
    verify_message s fields types constants (initialize b first last) = Ok x' ->
    exists es, Inv x' b es /\ x_first x' = first /\ x_last x' = last /\
      (forall es', run first last b es' -> exists t, es = es' ++ t).
  Proof.
    intros WB F1 IP LL V. destruct (initialize_inv b first last WB F1 IP) as [I LV].
    destruct (verify_all_done fields [] _ b [] x' eq_refl I LV LL ltac:(intros f []) V) as (es & I2 & F2 & L2 & D).
    change (x_first (initialize b first last)) with first in *. change (x_last (initialize b first last)) with last in *.
    exists es. split; [auto|]. split; [auto|]. split; [auto|]. intros es' R'.
    pose proof (i_run _ _ _ _ _ _ _ I2) as R. rewrite F2, L2 in R.
    destruct (run_det s types constants TS first last DET b es es' R R') as (t & [->| ->]); [|eauto].
    destruct t as [|e t]; [exists []; now rewrite !app_nil_r|exfalso].
    destruct (run_step_field _ _ _ _ _ _ R') as (NX & IF & ST).
    apply (D (e_fld e) IF) in ST; auto.
    rewrite <- F2, <- L2 in NX. eapply next_fresh; eauto.
  Qed.

  (** ** Structural_Valid_Message and Valid_Message *)
  Context (SC : scoped s fields).

  (** a link means the same once more fields follow *)
  Lemma env_scoped F L b pre post l e n : run F L b (pre ++ post) -> In l s -> source l = last_fld pre ->
    In e (condition l :: opt_expr (lsize l) ++ opt_expr (lfirst l)) -> In n (names e) ->
    env_of F L (pre ++ post) n = env_of F L pre n.
  Proof.
    intros R I S IE J. apply env_prefix. intros Q. apply in_map_iff in Q as (e' & EQ & Q).
    assert (IF : In (e_fld e') fields) by (eapply run_in_fields; eauto; apply in_or_app; now right).
    destruct (SC l e n I IE J) as [NI UP]; [now rewrite <- EQ|]. rewrite S in NI, UP.
    assert (NE : pre <> []) by (intros ->; now apply NI).
    pose proof (run_prefix _ _ _ _ _ _ _ _ R) as R0. pose proof (last_fld_field s fields types constants W F L b pre R0 NE) as LF.
    apply (in_upto fields _ _ (wf_nodup _ _ W) LF) in UP. rewrite <- EQ in UP.
    destruct (exists_last NE) as (pre' & e0 & ->). rewrite last_fld_snoc in UP.
    rewrite <- app_assoc in R. cbn [app] in R. pose proof (run_later s fields types constants W F L b pre' e0 post e' R Q). lia.
  Qed.
  Lemma holds_scoped F L b pre post l : run F L b (pre ++ post) -> In l s -> source l = last_fld pre ->
    (holds F L (pre ++ post) l <-> holds F L pre l).
  Proof.
    intros R I S. unfold GenSpec.holds. rewrite (eval_sc_ext (env_of F L (pre ++ post)) (env_of F L pre)); [tauto|].
    intros n J. eapply env_scoped; eauto. now left.
  Qed.

  Definition counts (structural : bool) (x : context) (f : field) : bool :=
    if structural && composite f then structural_valid (x @ f) else valid_field x f.

  Lemma message_cond_spec x b es structural : Inv x b es -> forall n pre rest q, es = pre ++ rest ->
    message_cond s fields types constants n structural x (last_fld pre) = Ok q ->
    (q = true <-> complete (x_first x) (x_last x) b es /\ forall e, In e rest -> counts structural x (e_fld e) = true).
  Proof.
    intros I. set (F := x_first x). set (L := x_last x).
    pose proof (i_run _ _ _ _ _ _ _ I) as R. fold F L in R. pose proof (inv_covers _ _ _ _ _ _ _ I) as CV.
    induction n as [|n IH]; intros pre rest q ES V; cbn [message_cond] in V; [discriminate|].
    set (disj := fun l => _) in V.
    assert (R0 : run F L b pre) by (rewrite ES in R; eapply run_prefix; eauto).
    assert (SE : forall l c, In l s -> source l = last_fld pre -> cond (look x) l = Ok c -> (c = true <-> holds F L pre l)).
    { intros l c IL S E. rewrite <- (holds_scoped F L b pre rest l) by (auto; now rewrite <- ES).
      rewrite <- ES. pose proof (covers_sees s fields types constants W x b es l R CV) as SEE.
      destruct c; split; intros Q; auto; try discriminate.
      - exact (cond_holds fields types constants x es l SEE E).
      - exfalso. revert Q. exact (cond_not_holds fields types constants x es l SEE E). }
    assert (DSP : forall l c, In l s -> source l = last_fld pre -> disj l = Ok c ->
      (c = true <-> holds F L pre l /\ (target l = FINAL /\ complete F L b es /\ rest = [] \/
         exists e t, rest = e :: t /\ target l = e_fld e /\ complete F L b es /\ forall e', In e' rest -> counts structural x (e_fld e') = true))).
    { intros l c IL S E. unfold disj in E. destruct (String.eqb_spec (target l) FINAL) as [TF|NF].
      - rewrite (SE l c IL S E). split; [|tauto]. intros H. split; [exact H|]. left. split; [exact TF|].
        destruct rest as [|e t].
        + split; [|reflexivity]. rewrite ES, app_nil_r. split; [exact R0|]. eauto.
        + exfalso. rewrite ES in R. pose proof (run_step _ _ _ _ _ _ _ _ _ R) as ((l' & z & I' & S' & T' & N' & H' & _) & _).
          assert (X : l = l') by (apply (holds_unique s types constants F L DET b pre l l'); auto). congruence.
      - fold (counts structural x (target l)) in E. cbn [and_then] in E.
        assert (IT : In (target l) fields) by (destruct (wf_target _ _ W l IL); [contradiction|assumption]).
        assert (CF : counts structural x (target l) = true -> exists e, In e es /\ e_fld e = target l).
        { intros C. assert (SV : structural_valid (x @ (target l)) = true).
          { unfold counts in C. destruct (structural && composite (target l)); [exact C|].
            unfold valid_field in C. apply andb_true_iff in C as [C _]. unfold valid in C. unfold structural_valid. destruct (c_state _); auto. }
          destruct (CV _ IT SV) as (e & J & EE & _). eauto. }
        (* where the link leads *)
        assert (GO : holds F L pre l -> counts structural x (target l) = true -> exists e t, rest = e :: t /\ target l = e_fld e).
        { intros H C. destruct rest as [|e t].
          - exfalso. destruct (CF C) as (e & J & EE). rewrite ES, app_nil_r in J.
            pose proof (run_rank s fields types constants W F L b pre e R0 J) as K.
            pose proof (wf_rank _ _ W l IL IT) as K2. rewrite S, <- EE in K2. lia.
          - exists e, t. split; [reflexivity|]. rewrite ES in R. pose proof (run_step _ _ _ _ _ _ _ _ _ R) as ((l' & z & I' & S' & T' & N' & H' & _) & _).
            assert (X : l = l') by (apply (holds_unique s types constants F L DET b pre l l'); auto). congruence. }
        cbn [bind] in E. destruct (counts structural x (target l)) eqn:C.
        + dbind E c1 E1. pose proof (SE l c1 IL S E1) as SQ. destruct c1.
          * pose proof (proj1 SQ eq_refl) as H. destruct (GO H eq_refl) as (e & t & RT & TE).
            dbind E c2 E2. assert (c = c2) by (destruct c2; apply Ok_inj in E; auto). subst c2.
            rewrite TE in E2. rewrite <- (last_fld_snoc pre e) in E2.
            rewrite (IH (pre ++ [e]) t c) by (auto; rewrite <- app_assoc; cbn [app]; now rewrite ES, RT).
            rewrite RT. split.
            -- intros [CO A]. split; [exact H|]. right. exists e, t. split; [reflexivity|]. split; [exact TE|]. split; [exact CO|].
               intros e' [<-|J]; [now rewrite <- TE|auto].
            -- intros [_ [[TF _]|(e1 & t1 & E3 & _ & CO & A)]]; [contradiction|]. split; [exact CO|]. intros e' J. apply A. now right.
          * apply Ok_inj in E. subst c. split; [discriminate|]. intros [H _]. now apply SQ in H.
        + apply Ok_inj in E. subst c. split; [discriminate|]. intros [_ [[TF _]|(e1 & t1 & E3 & TE & _ & A)]]; [contradiction|].
          rewrite TE in C. rewrite A in C; [discriminate|]. rewrite E3. now left. }
    destruct q.
    - split; [intros _|auto]. apply or_all_true, in_map_iff in V as (l & E & IO). apply in_outgoing in IO as [IL S].
      destruct (proj1 (DSP l true IL S E) eq_refl) as [_ [(_ & CO & ->)|(e & t & _ & _ & CO & A)]]; [|auto].
      split; [exact CO|]. intros e [].
    - split; [discriminate|]. intros [CO A]. exfalso.
      assert (X : exists l, In l s /\ source l = last_fld pre /\ holds F L pre l /\
        (target l = FINAL /\ complete F L b es /\ rest = [] \/
         exists e t, rest = e :: t /\ target l = e_fld e /\ complete F L b es /\ forall e', In e' rest -> counts structural x (e_fld e') = true)).
      { destruct rest as [|e t].
        - pose proof CO as CO2. rewrite ES, app_nil_r in CO2. destruct CO2 as (_ & l & IL & S & T & H). exists l. auto 10.
        - rewrite ES in R. pose proof (run_step _ _ _ _ _ _ _ _ _ R) as ((l & z & I' & S' & T' & N' & H' & _) & _).
          exists l. split; [exact I'|]. split; [exact S'|]. split; [exact H'|]. right. exists e, t. auto. }
      destruct X as (l & IL & S & X). assert (E : disj l = Ok false).
      { apply (or_all_false _ V), in_map. now apply in_outgoing. }
      pose proof (proj2 (DSP l false IL S E) X). discriminate.
  Qed.

  (** the size of a scalar is not zero *)
  Lemma run_scalar_size F L b es e size vd : run F L b es -> In e es -> types (e_fld e) = FScalar size vd -> e_first e <= e_last e.
  Proof.
    intros R J T. apply in_split in J as (pre & post & ->). pose proof (run_step _ _ _ _ _ _ _ _ _ R) as ((l & z & _ & _ & _ & _ & _ & _ & K & _ & B & _) & _).
    rewrite T in K. pose proof (TS _ _ _ T). lia.
  Qed.
  Theorem structural_valid_message_spec x b es n q : Inv x b es ->
    structural_valid_message s fields types constants n x = Ok q -> (q = true <-> complete (x_first x) (x_last x) b es).
  Proof.
    intros I V. rewrite (message_cond_spec x b es true I n [] es q eq_refl V). split; [tauto|]. intros CO. split; [exact CO|].
    intros e J. pose proof (i_run _ _ _ _ _ _ _ I) as R. pose proof (run_in_fields s fields types constants W _ _ b es e R J) as IF.
    apply in_split in J as JS. destruct JS as (pre & post & ES). pose proof (i_cur _ _ _ _ _ _ _ I pre e post ES) as (A & B & _ & C1 & C2 & _).
    unfold counts. cbn [andb]. destruct (composite (e_fld e)) eqn:CM; [exact A|]. unfold valid_field. rewrite (B eq_refl). cbn [andb].
    unfold GenCode.composite in CM. destruct (types (e_fld e)) as [size vd|] eqn:T.
    - rewrite C1, C2. pose proof (run_scalar_size _ _ _ _ _ _ _ R J T). apply Z.ltb_lt. lia.
    - apply memf_iff in IF. congruence.
  Qed.
  Theorem valid_message_spec x b es n q : Inv x b es ->
    valid_message s fields types constants n x = Ok q ->
    (q = true <-> complete (x_first x) (x_last x) b es /\ forall e, In e es -> valid_field x (e_fld e) = true).
  Proof. intros I V. exact (message_cond_spec x b es false I n [] es q eq_refl V). Qed.

  (** Verify does not make composite fields valid *)
  Lemma verify_composite x f x' g : verify x f = Ok x' -> In g fields -> composite g = true -> valid (x @ g) = false -> valid (x' @ g) = false.
  Proof.
    intros V IG CG VG. unfold GenCode.verify in V. destruct (_ && _ && _) in V; [|apply Ok_inj in V; congruence].
    dbind V pc PC. destruct pc; [|apply Ok_inj in V; congruence].
    assert (U : forall y h c, valid c = false -> valid (y @ g) = false -> valid ((set_cursor y h c) @ g) = false).
    { intros y h c C Y. cbn [set_cursor x_cursors]. unfold upd. destruct (String.eqb g h); auto. }
    dbind V sf SF. destruct sf; [|apply Ok_inj in V; subst x'; now apply U].
    dbind V v EV. dbind V z EZ. dbind V fc FC. destruct (_ && _) in V; [|apply Ok_inj in V; subst x'; now apply U].
    dbind V l EL. dbind V a EA. dbind V n SU. apply Ok_inj in V. subst x'. apply U; [reflexivity|].
    cbn [set_cursor set_message_last x_cursors]. unfold upd. destruct (String.eqb_spec g f) as [->|]; [|exact VG]. now rewrite CG.
  Qed.
  Lemma verify_all_composite fs : forall x x' g, verify_all x fs = Ok x' -> In g fields -> composite g = true -> valid (x @ g) = false -> valid (x' @ g) = false.
  Proof.
    induction fs as [|f fs IH]; intros x x' g V IG CG VG; cbn [GenCode.verify_all] in V; [apply Ok_inj in V; congruence|].
    dbind V y E. eapply IH; eauto. eapply verify_composite; eauto.
  Qed.
End Message.
