(** Lemmas for C64: the procedures for array fields fail no check. *)
From Coq Require Import String List ZArith Bool Lia Arith.
From Verif Require Import Base Expr ExprEval ExprMore MsgGraph MsgGraphFacts AdaTypes P_AdaTypes AdaBuffer AdaBufferFacts GenCode GenSpec GenFacts
  GenRun GenInv GenVerify GenMessage GenSet GenPred GenTotal GenArray GenArrayFacts.
From Verif Require ScalarSeq P_ScalarSeq.
Import ListNotations.
Local Open Scope string_scope.
Local Open Scope list_scope.
Local Open Scope Z_scope.
Local Open Scope res_scope.
Local Notation length := List.length.

Section Total.
  Context (s : list link) (fields : list field) (types : field -> ftype) (constants : name -> option Z).
  Local Notation run := (run s types constants).
  Local Notation composite := (composite fields types).
  Local Notation Inv := (Inv s fields types constants).
  Local Notation field_first := (field_first s fields types constants).
  Local Notation field_size := (field_size s fields types constants).
  Local Notation field_last := (field_last s fields types constants).
  Local Notation valid_next := (valid_next s fields types constants).
  Local Notation "x @ f" := (x_cursors x f) (at level 9, f at level 9).
  Context (W : wf s fields) (TS : forall f size vd, types f = FScalar size vd -> 1 <= size <= 64)
    (DET : deterministic s types constants) (SC : scoped s fields) (NO : no_overlay s)
    (FS : exists size vd, types (first_field fields) = FScalar size vd)
    (VIS : visible s fields types constants) (CMP : computable s types constants) (NF : no_own s AFirst).

  (** the place of an entry is computed without failing a check *)
  Lemma entry_total x b es pre e post : Inv x b es -> es = pre ++ e :: post -> types (e_fld e) = FComposite ->
    valid_next x (e_fld e) = Ok true /\ field_first x (e_fld e) = Ok (e_first e) /\
    field_size x (e_fld e) = Ok (e_last e - e_first e + 1) /\ field_last x (e_fld e) = Ok (e_last e) /\
    field_cond s fields types constants x (e_fld e) 0 (e_last e - e_first e + 1) = Ok true /\
    sufficient_space s fields types constants x (e_fld e) = Ok true.
  Proof.
    intros I ES TY. pose proof (i_run _ _ _ _ _ _ _ I) as R. pose proof (inv_range _ _ _ _ _ _ _ I) as [B1 B2]. pose proof R as R'. rewrite ES in R'.
    pose proof (run_prefix _ _ _ _ _ _ _ _ R') as R0. pose proof (run_step _ _ _ _ _ _ _ _ _ R') as (PC & CO & LD).
    pose proof (i_cur _ _ _ _ _ _ _ I pre e post ES) as (SV & _ & PL & CF & _).
    pose proof (inv_seen _ _ _ _ _ _ _ _ _ I ES) as SN.
    assert (IE : In e es) by (rewrite ES; apply in_or_app; right; now left).
    assert (IF : In (e_fld e) fields) by (eapply run_in_fields; [exact W|exact R|exact IE]).
    pose proof PC as (l & k & IL & S & T & NFI & H & A & K & K0 & B & A1 & LB). rewrite (NO l IL) in A.
    destruct (entry_computed s fields types constants W DET SC NO x b es pre e post I ES) as [_ CZ].
    destruct (first_total s fields types constants W TS NO FS VIS CMP x b pre R0 SN B1 B2 (e_fld e) PL IF l IL S T H) as (EA & _).
    destruct (field_size_total s fields types constants W TS DET NO VIS CMP x b pre R0 SN B1 B2 (e_fld e) PL IF l IL S T H) as (z & EZ & Z0 & _).
    pose proof (CZ z EZ) as ZE.
    destruct (field_last_total s fields types constants W TS DET NO FS VIS CMP x b pre R0 SN B1 B2 (e_fld e) PL IF l IL S T H z EZ) as [EL _]; [lia|].
    destruct (space_total s fields types constants W TS DET NO FS VIS CMP x b pre R0 SN B1 B2 (e_fld e) PL IF l IL S T H) as (z' & SP & EZ').
    assert (z' = z) by congruence. subst z'.
    assert (TR : (rank fields (last_fld pre) < rank fields (e_fld e))%nat) by (rewrite <- S, <- T; apply (wf_rank _ _ W l IL); now rewrite T).
    assert (FR : ~ In (e_fld e) (map e_fld pre)) by (apply (run_fresh s fields types constants W _ _ b pre _ R0 TR)).
    assert (VN : valid_next x (e_fld e) = Ok true).
    { unfold GenCode.valid_next. destruct (valid_predecessor s fields types x (e_fld e)) eqn:VP.
      - destruct (path_total s fields types constants W NO VIS CMP x b pre R0 SN B1 B2 (e_fld e) PL) as (q & EQ & _).
        rewrite EQ. destruct q; [reflexivity|exfalso]. unfold path_condition in EQ.
        pose proof (holds_cond s fields types constants W NO VIS CMP x b pre R0 SN B1 B2 l IL S H) as HC.
        assert (X : cond (look fields types constants x) l = Ok false); [|congruence].
        apply (or_all_false _ EQ). apply in_map_iff. exists l. split; [reflexivity|]. apply in_links_to. rewrite PL. auto.
      - exfalso. unfold valid_predecessor in VP.
        assert (X : existsb (fun p => (if String.eqb p INITIAL then true else if composite p then structural_valid (x @ p) else valid (x @ p)) &&
                       String.eqb (c_pred (x @ (e_fld e))) p) (direct_predecessors s (e_fld e)) = true); [|congruence].
        apply existsb_exists. exists (last_fld pre). split.
        + unfold direct_predecessors. apply (unique_In String.eqb String.eqb_eq), in_map_iff. exists l. split; [exact S|]. now apply in_incoming.
        + rewrite PL, String.eqb_refl, andb_true_r. destruct (String.eqb_spec (last_fld pre) INITIAL) as [|NI]; [reflexivity|].
          assert (NE : pre <> []) by (intros ->; now apply NI). destruct (exists_last NE) as (p & e0 & EP).
          rewrite EP, last_fld_snoc. assert (ES' : es = p ++ e0 :: e :: post) by (rewrite ES, EP, <- app_assoc; reflexivity).
          pose proof (i_cur _ _ _ _ _ _ _ I p e0 _ ES') as (Q1 & Q2 & _). destruct (composite (e_fld e0)); auto. }
    assert (EL' : field_last x (e_fld e) = Ok (e_last e)) by (rewrite EL; f_equal; lia).
    split; [exact VN|]. split; [rewrite EA; f_equal; lia|]. split; [congruence|]. split; [exact EL'|].
    split; [|rewrite SP; f_equal; apply Z.leb_le; lia].
    assert (VR' : match types (e_fld e) with FScalar k' _ => 0 <= 0 < 2 ^ k' | FComposite => 0 = 0 end) by now rewrite TY.
    destruct (field_cond_total s fields types constants W TS DET NO FS VIS CMP x b pre R0 SN B1 B2 (e_fld e) PL IF l IL S T H 0 z z FR EZ VR' (or_introl eq_refl)
                ltac:(left; lia) NF) as (q & FC).
    rewrite <- ZE, FC. destruct q; [reflexivity|exfalso].
    apply (field_cond_false s fields types constants x pre (e_fld e) (e_first e) z 0 z) in FC; auto.
    - apply FC. replace (e_first e + z - 1) with (e_last e) by lia. unfold GenSpec.content in CO. rewrite TY in CO. rewrite <- CO. destruct e. exact LD.
    - intros l' n w IL' S' J N E.
      assert (E2 : env_of constants (x_first x) (x_last x) es n = w) by (eapply look_sound; eauto; eapply inv_covers; eauto).
      rewrite <- E2, ES. symmetry. apply env_prefix. intros Q. apply in_map_iff in Q as (e1 & EQ & Q).
      assert (IE1 : In (e_fld e1) fields) by (eapply run_in_fields; [exact W|exact R|rewrite ES; apply in_or_app; now right]).
      destruct (SC l' (condition l') n IL' (or_introl eq_refl) J) as [_ UP]; [now rewrite <- EQ|].
      rewrite S' in UP. apply (in_upto fields _ _ (wf_nodup _ _ W) IF) in UP. rewrite <- EQ in UP. destruct Q as [<-|Q]; [congruence|].
      pose proof (run_later s fields types constants W _ _ b pre e post e1 R' Q). lia.
    - intros q E. rewrite EL' in E. apply Ok_inj in E. lia.
  Qed.

  (** Switch_To_<Field> may be called for a field that is not empty *)
  Lemma switch_ready x b es pre e post : Inv x b es -> es = pre ++ e :: post -> types (e_fld e) = FComposite ->
    e_first e mod 8 = 1 -> e_first e <= e_last e -> switch_pre s fields types constants x (e_fld e) = Ok true.
  Proof.
    intros I ES TY A8 NE. destruct (entry_total x b es pre e post I ES TY) as (VN & EA & EZ & EL & FC & SP).
    pose proof (i_bounds _ _ _ _ _ _ _ I) as (BB & _). unfold switch_pre, has_buffer. rewrite BB, VN, EA, EZ, SP. cbn [and_then bind].
    destruct (Z.ltb_spec 0 (e_last e - e_first e + 1)); [|lia]. destruct (Z.eqb_spec (e_first e mod 8) 1); [|contradiction]. rewrite FC. reflexivity.
  Qed.

  Context (NL : no_own s ALast).
  Lemma switch_total x b es f : Inv x b es -> In f fields -> types f = FComposite ->
    exists q, switch_pre s fields types constants x f = Ok q /\ (q = true -> exists r, switch s fields types constants x f = Ok r).
  Proof.
    intros I IF TY. pose proof (inv_range _ _ _ _ _ _ _ I) as [B1 B2]. pose proof (i_bounds _ _ _ _ _ _ _ I) as BO. pose proof BO as (BB & WB & BF & BL & _).
    unfold switch_pre. cbn [and_then bind].
    destruct (has_buffer x) eqn:HB; [|exists false; split; [reflexivity|discriminate]].
    destruct (next_total s fields types constants W NO VIS CMP x b es f I IF) as (q & EN & NX). rewrite EN. cbn [bind]. destruct q; [|exists false; split; [reflexivity|discriminate]].
    destruct (NX eq_refl) as (pre & rest & l & ES & PL & R0 & SN & IL & S & T & H & FR). clear NX.
    destruct (field_size_total s fields types constants W TS DET NO VIS CMP x b pre R0 SN B1 B2 f PL IF l IL S T H) as (z & EZ & Z0 & K). rewrite TY in K. rewrite EZ. cbn [bind].
    destruct (Z.ltb_spec 0 z) as [ZP|]; [|exists false; split; [reflexivity|discriminate]].
    destruct (first_total s fields types constants W TS NO FS VIS CMP x b pre R0 SN B1 B2 f PL IF l IL S T H) as (EA & A1 & _). rewrite EA. cbn [bind].
    destruct (Z.eqb_spec ((end_bit (x_first x) pre + 1) mod 8) 1) as [A8|]; [|exists false; split; [reflexivity|discriminate]]. cbn [bind].
    assert (VR' : match types f with FScalar k' _ => 0 <= 0 < 2 ^ k' | FComposite => 0 = 0 end) by now rewrite TY.
    destruct (field_cond_total s fields types constants W TS DET NO FS VIS CMP x b pre R0 SN B1 B2 f PL IF l IL S T H 0 z z FR EZ VR' (or_introl eq_refl) (or_intror NL) NF) as (q & EF). rewrite EF.
    cbn [bind]. destruct q; [|exists false; split; [reflexivity|discriminate]].
    destruct (space_total s fields types constants W TS DET NO FS VIS CMP x b pre R0 SN B1 B2 f PL IF l IL S T H) as (z' & SP & EZ2). rewrite SP. assert (z' = z) by congruence. subst z'. cbn [bind].
    destruct (Z.leb_spec z (x_last x - (end_bit (x_first x) pre + 1) + 1)) as [LB|]; [|exists false; split; [reflexivity|discriminate]].
    exists true. split; [reflexivity|]. intros _.
    destruct (field_last_total s fields types constants W TS DET NO FS VIS CMP x b pre R0 SN B1 B2 f PL IF l IL S T H z EZ) as [EL _]; [lia|].
    unfold switch. rewrite EA, EL. cbn [bind].
    assert (Y : exists y, (if invalid (x @ f) then enter_field s fields types constants S_Structural_Valid (reset_dependent_fields fields x f) f (end_bit (x_first x) pre + 1) (end_bit (x_first x) pre + z) 0
                 else Ok x) = Ok y /\ x_buffer y = Some b /\ x_buffer_first y = b_first b /\ x_buffer_last y = b_last b).
    { destruct (invalid (x @ f)) eqn:IV; [|exists x; auto].
      set (xr := reset_dependent_fields fields x f).
      destruct (reset_seen s fields types constants W x b f pre l IF R0 IL S T SN) as (SR & PR & FR' & LR & BR). fold xr in SR, PR, FR', LR, BR.
      destruct (enter_total s fields types constants W VIS CMP S_Structural_Valid xr b pre f l z 0) as (x' & EX); auto; rewrite ?FR', ?LR; auto.
      { rewrite TY. auto. }
      rewrite FR' in EX. exists x'. split; [exact EX|]. destruct (enter_buffer _ _ _ _ _ _ _ _ _ _ _ EX) as (Q1 & Q2 & Q3).
      destruct (reset_bounds s fields types constants W x b es f I IF) as (_ & _ & (RB1 & _ & RB3 & RB4 & _)). fold xr in RB1, RB3, RB4. split; [congruence|]. split; congruence. }
    destruct Y as (y & -> & Y1 & Y2 & Y3). cbn [bind]. unfold take_buffer, has_buffer. rewrite Y1. cbn [bind fst snd].
    change (x_buffer_first (set_buffer y None)) with (x_buffer_first y). change (x_buffer_last (set_buffer y None)) with (x_buffer_last y). rewrite Y2, Y3.
    pose proof (run_bits s types constants NO _ _ b pre R0) as [FB _].
    assert (INB : in_buf b (end_bit (x_first x) pre + 1) (end_bit (x_first x) pre + z)) by (apply (in_range x b); [exact BO|lia|lia]).
    destruct INB as (IB1 & IB2). unfold First_Bit_Index, Last_Bit_Index in IB1, IB2.
    pose proof (byte_index_bounds (end_bit (x_first x) pre + 1)) as Q1. pose proof (byte_index_bounds (end_bit (x_first x) pre + z)) as Q2.
    destruct (seq_initialize_ok b (end_bit (x_first x) pre + 1) (end_bit (x_first x) pre + z)) as (r & ->); auto; try lia. cbn [bind]. eauto.
  Qed.

  (** Update_<Field> may be called once the sequence fills the field *)
  Lemma update_ready x b es pre e post c : Inv (set_buffer x (Some b)) b es -> es = pre ++ e :: post -> types (e_fld e) = FComposite ->
    x_buffer x = None -> ScalarSeq.has_buffer c = true -> ScalarSeq.buffer_first c = b_first b -> ScalarSeq.buffer_last c = b_last b ->
    ScalarSeq.first c = e_first e -> ScalarSeq.last c = e_last e -> e_first e <= e_last e ->
    update_pre s fields types constants x (e_fld e) c = Ok (ScalarSeq.state_valid c && (ScalarSeq.sequence_last c =? e_last e)).
  Proof.
    intros I ES TY NB HB BF BL CF CL NE. destruct (entry_total _ b es pre e post I ES TY) as (VN & EA & EZ & EL & _).
    pose proof (i_cur _ _ _ _ _ _ _ I pre e post ES) as (SV & _ & _ & C1 & C2 & _). cbn [set_buffer x_cursors] in SV, C1, C2.
    pose proof (i_bounds _ _ _ _ _ _ _ I) as (_ & _ & B1 & B2 & _). cbn [set_buffer x_buffer_first x_buffer_last] in B1, B2.
    change (valid_next (set_buffer x (Some b)) (e_fld e)) with (valid_next x (e_fld e)) in VN.
    change (field_first (set_buffer x (Some b)) (e_fld e)) with (field_first x (e_fld e)) in EA.
    change (field_size (set_buffer x (Some b)) (e_fld e)) with (field_size x (e_fld e)) in EZ.
    change (field_last (set_buffer x (Some b)) (e_fld e)) with (field_last x (e_fld e)) in EL.
    unfold update_pre, switch_update_conditions, complete_field, present. cbn [app and_then].
    rewrite VN, EZ, EA, EL, SV, C1, C2, HB, B1, B2, BF, BL, CF, CL, !Z.eqb_refl. unfold has_buffer. rewrite NB. cbn [bind andb negb].
    destruct (Z.ltb_spec (e_first e) (e_last e + 1)); [|lia].
    replace (seq_size c =? e_last e - e_first e + 1) with (ScalarSeq.sequence_last c =? e_last e).
    - destruct (ScalarSeq.state_valid c && (ScalarSeq.sequence_last c =? e_last e)); rewrite ?Z.eqb_refl; reflexivity.
    - unfold seq_size. rewrite CF. destruct (Z.eqb_spec (ScalarSeq.sequence_last c) (e_last e)); symmetry; [apply Z.eqb_eq|apply Z.eqb_neq]; lia.
  Qed.
End Total.
