(** The invariant implies the predicate of the generated Context. *)
From Coq Require Import String List ZArith Bool Lia Arith.
From Verif Require Import Base Expr ExprEval ExprMore MsgGraph MsgGraphFacts P_MsgGraph
  AdaTypes AdaBuffer AdaBufferFacts P_AdaTypes GenCode GenSpec GenFacts GenRun GenInv GenVerify GenMessage GenSet.
Import ListNotations.
Local Open Scope string_scope.
Local Open Scope list_scope.
Local Open Scope Z_scope.
Local Notation length := List.length.

Lemma or_all_in l b : or_all l = Ok b -> In (Ok true) l -> b = true.
Proof. destruct b; [reflexivity|]. intros E I. pose proof (or_all_false l E _ I). discriminate. Qed.

Lemma last_indep {A} (l : list A) d d' : l <> [] -> List.last l d = List.last l d'.
Proof. intros N. destruct (exists_last N) as (t & x & ->). now rewrite !last_snoc. Qed.

Section Pred.
  Context (s : list link) (fields : list field) (types : field -> ftype) (constants : name -> option Z).
  Local Notation run F L := (run s types constants F L).
  Local Notation holds F L := (holds constants F L).
  Local Notation look := (look fields types constants).
  Local Notation composite := (composite fields types).
  Local Notation Inv := (Inv s fields types constants).
  Local Notation "x @ f" := (x_cursors x f) (at level 9, f at level 9).

  Context (W : wf s fields) (TS : forall f size vd, types f = FScalar size vd -> 1 <= size <= 64)
    (DET : deterministic s types constants) (SC : scoped s fields) (NO : no_overlay s)
    (FS : exists size vd, types (first_field fields) = FScalar size vd).

  Section One.
    Context (x : context) (b : buffer) (es : list entry).
    Hypothesis I : Inv x b es.
    Local Notation F := (x_first x).
    Local Notation L := (x_last x).

    Local Lemma R : run F L b es.
    Proof. exact (i_run _ _ _ _ _ _ _ I). Qed.
    Local Lemma CV : covers fields x es.
    Proof. eapply inv_covers; eauto. Qed.

    Lemma sees_scoped pre rest l : es = pre ++ rest -> In l s -> source l = last_fld pre -> sees fields types constants x pre l.
    Proof.
      intros ES IL S e n w IE J E.
      rewrite <- (env_scoped s fields types constants W SC F L b pre rest l e n); auto; rewrite <- ES; [|exact R].
      eapply look_sound; eauto; [exact R|exact CV].
    Qed.
    Lemma first_last : es <> [] -> F <= end_bit F es.
    Proof.
      intros N. pose proof R as R. destruct es as [|e t] eqn:EE; [contradiction|]. rewrite <- EE in *.
      pose proof (run_bits s types constants NO F L b es R) as [_ RB].
      destruct (RB e) as [A B]; [rewrite EE; now left|].
      assert (R2 : run F L b ([] ++ e :: t)) by (cbn [app]; now rewrite <- EE). pose proof (run_step _ _ _ _ _ _ _ _ _ R2) as ((l & k & IL & S & T & NF & _ & _ & K & _ & B2 & _) & _).
      assert (EF : e_fld e = first_field fields) by (rewrite <- T; apply (wf_from_initial _ _ W l IL S); congruence).
      destruct FS as (size & vd & TF). rewrite EF, TF in K. pose proof (TS _ _ _ TF). subst k. clear -A B B2 H. lia.
    Qed.
    Lemma mlast : F <= x_message_last x /\ x_message_last x <= L.
    Proof.
      rewrite (i_last _ _ _ _ _ _ _ I). pose proof R as R. pose proof (i_bounds _ _ _ _ _ _ _ I) as (_ & _ & _ & _ & _ & _ & _ & FL & _).
      destruct es as [|e0 t0] eqn:EE; [cbn; lia|]. rewrite <- EE in *. assert (N : es <> []) by congruence.
      pose proof (first_last N) as Q. destruct (exists_last N) as (es' & e & E). rewrite E in *. rewrite end_bit_snoc in Q.
      rewrite map_app. cbn [map]. rewrite last_snoc. split; [exact Q|].
      apply run_snoc_inv in R as [_ ((l & k & _ & _ & _ & _ & _ & _ & _ & _ & _ & _ & LB) & _)]. exact LB.
    Qed.
    Lemma on_path f : In f fields -> structural_valid (x @ f) = true -> exists pre e post, es = pre ++ e :: post /\ e_fld e = f.
    Proof.
      intros IF V. destruct (CV f IF V) as (e & J & EF & _). apply in_split in J as (pre & post & E). eauto.
    Qed.
    Lemma mem_end e : In e es -> e_last e <= x_message_last x.
    Proof.
      intros J. pose proof (run_bits s types constants NO F L b es R) as [_ RB]. destruct (RB e J) as [_ B].
      rewrite (i_last _ _ _ _ _ _ _ I). unfold end_bit in B. destruct es as [|e0 t]; [destruct J|].
      rewrite (last_indep _ _ F) in B; [exact B|discriminate].
    Qed.

    Lemma structure_inv n : forall pre rest l q, es = pre ++ rest -> In l s -> source l = last_fld pre ->
      structure_invariant s fields types constants n x l = Ok q -> q = true.
    Proof.
      induction n as [|n IH]; intros pre rest l q ES IL S E; cbn [structure_invariant] in E; [discriminate|].
      destruct (String.eqb_spec (target l) FINAL) as [TF|NF]; [apply Ok_inj in E; auto|].
      assert (IT : In (target l) fields) by (destruct (wf_target _ _ W l IL); [contradiction|assumption]).
      pose proof R as R. pose proof R as R0. rewrite ES in R0. apply run_prefix in R0.
      dbind E on EO. destruct on; [|apply Ok_inj in E; auto].
      apply and_then_cons in EO as [SV EO]. apply and_then_cons in EO as [CD _]. apply Ok_inj in SV.
      pose proof (sees_scoped pre rest l ES IL S) as SE.
      pose proof (cond_holds fields types constants x pre l SE CD) as H.
      destruct rest as [|e t].
      { exfalso. destruct (CV _ IT SV) as (e & J & EF & _). rewrite ES, app_nil_r in J.
        pose proof (run_rank s fields types constants W F L b pre e R0 J) as K. pose proof (wf_rank _ _ W l IL IT) as K2.
        rewrite S, <- EF in K2. lia. }
      pose proof R as R1. rewrite ES in R1. pose proof (run_step _ _ _ _ _ _ _ _ _ R1) as ((l' & k & I' & S' & T' & N' & H' & A & K & K0 & B & FA & _) & _).
      assert (X : l = l') by (apply (holds_unique s types constants F L DET b pre l l'); auto). subst l'.
      pose proof (i_cur _ _ _ _ _ _ _ I pre e t ES) as (_ & _ & C1 & C2 & C3 & _). rewrite <- T' in C1, C2, C3, K.
      eapply and_then_intro; [|exact E]. intros r c J Q. subst r. apply in_app_or in J as [J|J].
      - destruct J as [J|[J|[J|[]]]].
        + dbind J z EZ. apply Ok_inj in J. subst c. apply Z.eqb_eq. rewrite C2, C3.
          assert (z = k); [|lia]. destruct (types (target l)) as [size vd|].
          * apply Ok_inj in EZ. congruence.
          * pose proof (size_sees fields types constants x pre l z SE EZ) as (e1 & Q1 & Q2). destruct K as (e2 & Q3 & Q4). congruence.
        + apply Ok_inj in J. subst c. apply String.eqb_eq. congruence.
        + dbind J a' EA. apply Ok_inj in J. subst c. apply Z.eqb_eq. rewrite C2. rewrite (NO l IL) in A, EA.
          destruct (String.eqb_spec (source l) INITIAL) as [SI|SN].
          * apply Ok_inj in EA. subst a'. rewrite S in SI. rewrite (last_fld_nil s fields types constants W F L b pre R0 SI) in A. cbn in A. lia.
          * rewrite S in EA, SN. assert (NE : pre <> []) by (intros ->; now apply SN).
            destruct (structural_valid (x @ (last_fld pre))) in EA; [|discriminate]. apply Ok_inj in EA.
            destruct (exists_last NE) as (p & e0 & EP). rewrite EP in EA, A. rewrite last_fld_snoc in EA. rewrite end_bit_snoc in A.
            assert (ES' : es = p ++ e0 :: e :: t) by (rewrite ES, EP, <- app_assoc; reflexivity).
            pose proof (i_cur _ _ _ _ _ _ _ I p e0 (e :: t) ES') as (_ & _ & _ & _ & C & _). lia.
      - apply in_map_iff in J as (l2 & E2 & J). apply in_outgoing in J as [J S2].
        eapply (IH (pre ++ [e]) t l2); eauto.
        + now rewrite <- app_assoc.
        + rewrite last_fld_snoc. congruence.
    Qed.

    Theorem predicate n q : valid_context s fields types constants n x = Ok q -> q = true.
    Proof.
      unfold valid_context. apply and_then_intro. intros r c J E. subst r.
      pose proof (i_bounds _ _ _ _ _ _ _ I) as (B1 & B2 & B3 & B4 & B5 & B6 & B7 & B8 & B9). pose proof R as R.
      destruct J as [J|[J|[J|[J|[J|[J|[J|[J|[]]]]]]]]].
      - apply Ok_inj in J. subst c. rewrite B1. apply andb_true_iff. rewrite !Z.eqb_eq. auto.
      - apply Ok_inj in J. subst c. rewrite !andb_true_iff, !Z.leb_le, Z.ltb_lt. rewrite B3, B4. auto.
      - apply Ok_inj in J. subst c. apply Z.leb_le. apply mlast.
      - apply Ok_inj in J. subst c. apply Z.leb_le. apply mlast.
      - apply Ok_inj in J. subst c. apply forallb_forall. intros f IF. destruct (structural_valid (x @ f)) eqn:V; [|reflexivity].
        destruct (on_path f IF V) as (pre & e & post & ES & EF). cbn [negb orb].
        pose proof (i_cur _ _ _ _ _ _ _ I pre e post ES) as (_ & _ & _ & C1 & C2 & C3 & _). rewrite EF in *.
        assert (IE : In e es) by (rewrite ES; apply in_or_app; right; now left). pose proof (mem_end e IE) as ME.
        rewrite ES in R. pose proof (run_step _ _ _ _ _ _ _ _ _ R) as ((l & k & _ & _ & _ & _ & _ & _ & _ & K0 & B & FA & _) & _).
        rewrite !andb_true_iff, !Z.leb_le, String.eqb_eq, C1, C2. split; [|exact C3]. lia.
      - eapply and_then_intro; [|exact J]. clear c J. intros r c J E. subst r. apply in_map_iff in J as (f & E & J).
        apply filter_In in J as [IF NS]. destruct (structural_valid (x @ f)) eqn:V; [|apply Ok_inj in E; auto].
        destruct (on_path f IF V) as (pre & e & post & ES & EF). pose proof R as R1. rewrite ES in R1.
        pose proof (run_step _ _ _ _ _ _ _ _ _ R1) as ((l & k & IL & S & T & N & H & _) & _).
        pose proof (i_cur _ _ _ _ _ _ _ I pre e post ES) as (_ & _ & C1 & _). rewrite EF in *.
        assert (NI : source l <> INITIAL).
        { intros SI. apply negb_true_iff in NS. assert (X : memf f (direct_successors s INITIAL) = true); [|congruence].
          apply memf_iff. unfold direct_successors. apply (unique_In String.eqb String.eqb_eq), in_map_iff.
          exists l. split; [exact T|]. now apply in_outgoing. }
        rewrite S in NI. assert (NE : pre <> []) by (intros ->; now apply NI).
        eapply or_all_in; [exact E|]. apply in_map_iff. exists l. split; [|now apply in_incoming].
        destruct (exists_last NE) as (p & e0 & EP).
        assert (ES' : es = p ++ e0 :: e :: post) by (rewrite ES, EP, <- app_assoc; reflexivity).
        pose proof (i_cur _ _ _ _ _ _ _ I p e0 (e :: post) ES') as (V0 & V1 & _).
        assert (SE0 : source l = e_fld e0) by (rewrite S, EP; apply last_fld_snoc).
        cbn [and_then bind]. rewrite C1, S, String.eqb_refl.
        assert (X : (if composite (last_fld pre) then structural_valid (x @ (last_fld pre)) else valid (x @ (last_fld pre))) = true).
        { rewrite <- S, SE0. destruct (composite (e_fld e0)); auto. }
        rewrite X. 
        destruct (or_all_ok _ _ E (and_then [Ok (if composite (source l) then structural_valid (x @ (source l)) else valid (x @ (source l)));
                        Ok (String.eqb (c_pred (x @ f)) (source l)); cond (look x) l])) as (c' & EC).
        { apply in_map_iff. exists l. split; [reflexivity|]. now apply in_incoming. }
        cbn [and_then bind] in EC. rewrite C1, S, String.eqb_refl, X in EC. dbind EC d ED. rewrite ED. cbn [bind].
        destruct d; [reflexivity|exfalso]. revert H.
        eapply (cond_not_holds fields types constants); [|exact ED]. eapply sees_scoped; eauto.
      - apply Ok_inj in J. subst c. apply forallb_forall. intros f J. apply filter_In in J as [IF NS].
        destruct (invalid (x @ f)) eqn:IV; [apply orb_true_r|]. rewrite orb_false_r. apply negb_true_iff.
        assert (V : structural_valid (x @ f) = true) by (unfold structural_valid, invalid in *; destruct (c_state _); congruence).
        destruct (on_path f IF V) as (pre & e & post & ES & EF). rewrite ES in R.
        pose proof (run_step _ _ _ _ _ _ _ _ _ R) as ((l & k & IL & S & T & N & H & _) & _). rewrite EF in *.
        assert (NI : source l <> INITIAL).
        { intros SI. apply negb_true_iff in NS. assert (X : memf f (direct_successors s INITIAL) = true); [|congruence].
          apply memf_iff. unfold direct_successors. apply (unique_In String.eqb String.eqb_eq), in_map_iff.
          exists l. split; [exact T|]. now apply in_outgoing. }
        rewrite S in NI. assert (NE : pre <> []) by (intros ->; now apply NI).
        destruct (exists_last NE) as (p & e0 & EP).
        assert (ES' : es = p ++ e0 :: e :: post) by (rewrite ES, EP, <- app_assoc; reflexivity).
        pose proof (i_cur _ _ _ _ _ _ _ I p e0 (e :: post) ES') as (V0 & _).
        assert (SE0 : source l = e_fld e0) by (rewrite S, EP; apply last_fld_snoc).
        destruct (forallb _ _) eqn:FB; [|reflexivity]. rewrite forallb_forall in FB. specialize (FB (e_fld e0)).
        assert (Q : In (e_fld e0) (direct_predecessors s f)).
        { unfold direct_predecessors. apply (unique_In String.eqb String.eqb_eq), in_map_iff. exists l. split; [exact SE0|]. now apply in_incoming. }
        specialize (FB Q). unfold structural_valid, invalid in *. destruct (c_state (x @ (e_fld e0))); discriminate.
      - destruct (outgoing s INITIAL) as [|l ls] eqn:OI; [discriminate|].
        assert (J2 : In l (outgoing s INITIAL)) by (rewrite OI; now left). apply in_outgoing in J2 as [IL S].
        eapply (structure_inv n [] es l); eauto.
    Qed.
  End One.
End Pred.
