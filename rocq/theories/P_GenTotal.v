(** C50: no run-time check of the generated parser and serializer fails.

    [visible] and [computable] (GenTotal.v) say what is required of the expressions of a
    message, without reference to the generated code: the names in a link are known
    where the link starts, and the values of conditions and sizes are within the types
    that are used to compute them. *)
From Coq Require Import String List ZArith Bool Lia Arith.
From Verif Require Import Base Expr ExprEval MsgGraph MsgGraphFacts AdaTypes P_AdaTypes AdaBuffer AdaBufferFacts GenCode GenSpec GenFacts
  GenRun GenInv GenVerify GenMessage GenSet GenPred P_Gen GenTotal.
Import ListNotations.
Local Open Scope string_scope.
Local Open Scope list_scope.
Local Open Scope Z_scope.
Local Open Scope res_scope.
Local Notation length := List.length.

(** messages for which the generated code is free of run-time errors *)
Record proper (m : message) (fields : list field) (types : field -> ftype) (constants : name -> option Z) : Prop := {
  pr_overlay : no_overlay (structure m);
  pr_first : types (first_field fields) <> FComposite;
  pr_visible : visible (structure m) fields types constants;
  pr_computable : computable (structure m) types constants;
  pr_own_first : no_own (structure m) AFirst
}.

Section Proofs.
  Context (n : nat) (m : message) (fields : list field) (types : field -> ftype) (constants : name -> option Z).
  Context (A : accepted n m fields types constants) (P : proper m fields types constants).
  Local Notation s := (structure m).
  Local Notation Inv := (Inv s fields types constants).
  Local Notation W := (acc_wf _ _ _ _ _ A).
  Local Notation TS := (acc_types _ _ _ _ _ A).
  Local Notation DET := (acc_det _ _ _ _ _ A).
  Local Notation NO := (pr_overlay _ _ _ _ P).
  Local Notation VIS := (pr_visible _ _ _ _ P).
  Local Notation CMP := (pr_computable _ _ _ _ P).
  Local Notation NF := (pr_own_first _ _ _ _ P).

  Lemma scalar_first : exists size vd, types (first_field fields) = FScalar size vd.
  Proof. pose proof (pr_first _ _ _ _ P). destruct (types (first_field fields)); [eauto|contradiction]. Qed.
  Local Notation FS := scalar_first.
  Lemma has_initial : s <> [] -> outgoing s INITIAL <> [].
  Proof.
    intros NE. destruct (P_MsgGraph.C22_first _ _ _ (acc_construct _ _ _ _ _ A) NE) as (l & U & _).
    destruct (proj2 (U l) eq_refl) as [IL S]. intros E. pose proof (proj2 (in_outgoing s l INITIAL) (conj IL S)) as Q. rewrite E in Q. destruct Q.
  Qed.

  Lemma verify_all_ok fs x b es : Inv x b es -> (forall f, In f fs -> In f fields) -> exists x', verify_all s fields types constants x fs = Ok x'.
  Proof. exact (verify_all_total s fields types constants W TS DET NO FS VIS CMP NF fs x b es). Qed.
  Lemma message_ok st x b es k : Inv x b es -> (length fields < k)%nat -> exists q, message_cond s fields types constants k st x INITIAL = Ok q.
  Proof.
    intros I K. apply (message_cond_total s fields types constants W DET NO VIS CMP st x b es I k [] es eq_refl). lia.
  Qed.
  Lemma context_ok x b es k : s <> [] -> Inv x b es -> (length fields < k)%nat -> exists q, valid_context s fields types constants k x = Ok q.
  Proof.
    intros NE I K. exact (valid_context_total s fields types constants W DET NO VIS CMP k x b es I K (has_initial NE)).
  Qed.
  Lemma exec_ok x b es o : scoped s fields -> no_own_size s types -> no_own s ALast -> Inv x b es -> typed fields types o ->
    (exists x', exec s fields types constants x o = Ok x') \/ exec s fields types constants x o = Err "precondition".
  Proof.
    intros SC NS NL I [IF TY].
    assert (G : forall p r, (exists q, p = Ok q /\ (q = true -> exists y, r = Ok y)) ->
      (exists y, guarded p r = Ok y) \/ guarded p r = Err "precondition").
    { intros p r (q & -> & Q). unfold guarded. cbn [bind]. destruct q; [left; auto|now right]. }
    destruct o as [f|f v|st f|st f value]; cbn [op_field exec] in *.
    - left. exact (verify_total s fields types constants W TS DET NO FS VIS CMP NF x b es f I IF).
    - destruct TY as (size & vd & T & VR). apply G.
      refine (set_scalar_total s fields types constants W TS DET NO FS VIS CMP NF NL x b es f size vd v I IF T VR _).
      intros l IL S. rewrite <- S. apply (NS l IL). rewrite S, T. discriminate.
    - destruct TY as [T ST]. apply G. exact (set_composite_total s fields types constants W TS DET NO FS VIS CMP NF NL st x b es f I IF T ST).
    - destruct TY as (T & ST & _). apply G. exact (set_opaque_total s fields types constants W TS DET NO FS VIS CMP NF NL st x b es f value SC I IF T ST).
  Qed.
  Lemma exec_all_ok os : scoped s fields -> no_own_size s types -> no_own s ALast -> forall x b es, Inv x b es ->
    (forall o, In o os -> typed fields types o) ->
    (exists x', exec_all s fields types constants x os = Ok x') \/ exec_all s fields types constants x os = Err "precondition".
  Proof.
    intros SC NS NL. induction os as [|o os IH]; intros x b es I TY; cbn [exec_all]; [eauto|].
    destruct (exec_ok x b es o SC NS NL I (TY o (or_introl eq_refl))) as [(y & E)|E]; rewrite E; cbn [bind]; [|now right].
    destruct (exec_inv n m fields types constants A x b es o y SC NO NS I (TY o (or_introl eq_refl)) E) as (b1 & es1 & I1 & _).
    apply (IH y b1 es1 I1). intros o' J. apply TY. now right.
  Qed.
End Proofs.

(** ** C50 *)

(** Whatever the buffer contains, no call of Verify fails a check. *)
Theorem C50_verify : forall n m fields types constants b first last fs,
  accepted n m fields types constants -> proper m fields types constants -> input b first last -> (forall f, In f fs -> In f fields) ->
  exists x, verify_all (structure m) fields types constants (initialize fields b first last) fs = Ok x.
Proof.
  intros n m fields types constants b first last fs A P (WB & F1 & IP) IN.
  destruct (initialize_inv (structure m) fields types constants (acc_wf _ _ _ _ _ A) b first last WB F1 IP) as [I _].
  exact (verify_all_ok n m fields types constants A P fs _ b [] I IN).
Qed.

(** Then Structural_Valid_Message, Valid_Message and the predicate of Context can be
    evaluated, and every field that is valid can be read. *)
Theorem C50_message : forall n m fields types constants b first last fs x k,
  accepted n m fields types constants -> proper m fields types constants -> input b first last -> (forall f, In f fs -> In f fields) ->
  verify_all (structure m) fields types constants (initialize fields b first last) fs = Ok x -> (length fields < k)%nat ->
  (exists q, structural_valid_message (structure m) fields types constants k x = Ok q) /\
  (exists q, valid_message (structure m) fields types constants k x = Ok q) /\
  (forall f, In f fields -> structural_valid (x_cursors x f) = true -> exists v, get_field x f = Ok v).
Proof.
  intros n m fields types constants b first last fs x k A P IN FS V K.
  destruct (verified_inv n m fields types constants A b first last fs x IN FS V) as (es & I & _).
  split; [exact (message_ok n m fields types constants A P true x b es k I K)|].
  split; [exact (message_ok n m fields types constants A P false x b es k I K)|].
  intros f IF SV. destruct (inv_shows m fields types constants x b es I) as (S1 & S2 & _).
  apply (S1 f IF) in SV. apply in_map_iff in SV as (e & <- & J). destruct (S2 e J) as (_ & _ & E). eauto.
Qed.
Theorem C50_predicate : forall n m fields types constants b first last fs x k,
  accepted n m fields types constants -> proper m fields types constants -> scoped (structure m) fields -> structure m <> [] ->
  input b first last -> (forall f, In f fs -> In f fields) ->
  verify_all (structure m) fields types constants (initialize fields b first last) fs = Ok x -> (length fields < k)%nat ->
  valid_context (structure m) fields types constants k x = Ok true.
Proof.
  intros n m fields types constants b first last fs x k A P SC NE IN FS V K.
  destruct (verified_inv n m fields types constants A b first last fs x IN FS V) as (es & I & _).
  destruct (context_ok n m fields types constants A P x b es k NE I K) as (q & E). rewrite E. f_equal.
  exact (C37_predicate n m fields types constants b first last fs x k q A SC (pr_overlay _ _ _ _ P) (pr_first _ _ _ _ P) IN FS V E).
Qed.

(** The parser decides whether the buffer contains a message: it ends, without failing
    a check, in acceptance or rejection. *)
Theorem C50_decides : forall n m fields types constants b first last,
  accepted n m fields types constants -> proper m fields types constants -> scoped (structure m) fields ->
  input b first last -> last + 1 < Bit_Length_Last ->
  exists x q, verify_message (structure m) fields types constants (initialize fields b first last) = Ok x /\
    structural_valid_message (structure m) fields types constants (S (length fields)) x = Ok q /\
    (q = true <-> exists es, complete (structure m) types constants first last b es).
Proof.
  intros n m fields types constants b first last A P SC IN LL.
  destruct (C50_verify n m fields types constants b first last fields A P IN (fun f J => J)) as (x & V).
  destruct (C50_message n m fields types constants b first last fields x (S (length fields)) A P IN (fun f J => J) V ltac:(lia)) as ((q & Q) & _).
  exists x, q. split; [exact V|]. split; [exact Q|].
  exact (C37_accept n m fields types constants b first last x _ q A SC IN LL V Q).
Qed.

(** No call of a setter or of Verify fails a check: preconditions can be evaluated, and a
    setter whose precondition holds succeeds. *)
Theorem C50_history : forall n m fields types constants b first last os,
  accepted n m fields types constants -> proper m fields types constants -> scoped (structure m) fields ->
  no_own_size (structure m) types -> no_own (structure m) ALast -> input b first last ->
  (forall o, In o os -> typed fields types o) ->
  (exists x, exec_all (structure m) fields types constants (initialize fields b first last) os = Ok x) \/
  exec_all (structure m) fields types constants (initialize fields b first last) os = Err "precondition".
Proof.
  intros n m fields types constants b first last os A P SC NS NL (WB & F1 & IP) TY.
  destruct (initialize_inv (structure m) fields types constants (acc_wf _ _ _ _ _ A) b first last WB F1 IP) as [I _].
  exact (exec_all_ok n m fields types constants A P os SC NS NL _ b [] I TY).
Qed.
(** After any such history the message can be checked and the predicate of Context holds. *)
Theorem C50_history_message : forall n m fields types constants b first last os x k,
  accepted n m fields types constants -> proper m fields types constants -> scoped (structure m) fields -> structure m <> [] ->
  no_own_size (structure m) types -> input b first last -> (forall o, In o os -> typed fields types o) ->
  exec_all (structure m) fields types constants (initialize fields b first last) os = Ok x -> (length fields < k)%nat ->
  (exists q, structural_valid_message (structure m) fields types constants k x = Ok q) /\
  (exists q, valid_message (structure m) fields types constants k x = Ok q) /\
  valid_context (structure m) fields types constants k x = Ok true.
Proof.
  intros n m fields types constants b first last os x k A P SC NE NS IN TY E K.
  destruct (history_inv n m fields types constants A b first last os x SC (pr_overlay _ _ _ _ P) NS IN TY E) as (b' & es & I & _).
  split; [exact (message_ok n m fields types constants A P true x b' es k I K)|].
  split; [exact (message_ok n m fields types constants A P false x b' es k I K)|].
  destruct (context_ok n m fields types constants A P x b' es k NE I K) as (q & Q). rewrite Q. f_equal.
  exact (C38_predicate n m fields types constants b first last os x k q A SC (pr_overlay _ _ _ _ P) NS (pr_first _ _ _ _ P) IN TY E Q).
Qed.
(** What was serialized completely is accepted: both sides succeed. *)
Theorem C50_roundtrip : forall n m fields types constants b first last os x b' k,
  accepted n m fields types constants -> proper m fields types constants -> scoped (structure m) fields ->
  no_own_size (structure m) types -> input b first last -> last + 1 < Bit_Length_Last ->
  (forall o, In o os -> typed fields types o) ->
  exec_all (structure m) fields types constants (initialize fields b first last) os = Ok x -> x_buffer x = Some b' ->
  structural_valid_message (structure m) fields types constants k x = Ok true ->
  exists y, verify_message (structure m) fields types constants (initialize fields b' first last) = Ok y /\
    structural_valid_message (structure m) fields types constants (S (length fields)) y = Ok true.
Proof.
  intros n m fields types constants b first last os x b' k A P SC NS IN LL TY E EB SV.
  pose proof (pr_overlay _ _ _ _ P) as NO.
  destruct (history_inv n m fields types constants A b first last os x SC NO NS IN TY E) as (b1 & es & I & F & L & IN').
  assert (b1 = b') by (destruct (i_bounds _ _ _ _ _ _ _ I) as [X _]; congruence). subst b1.
  destruct (C50_decides n m fields types constants b' first last A P SC IN' LL) as (y & q & V & Q & _).
  exists y. split; [exact V|]. rewrite Q. f_equal.
  exact (C39_message n m fields types constants b first last os x b' y k (S (length fields)) q A SC NO NS IN LL TY E EB SV V Q).
Qed.

(** ** Cases *)

Lemma reached_in s types constants F L b es f : reached s types constants F L b es -> f = last_fld es -> f <> INITIAL -> In f (map e_fld es).
Proof. intros _ -> N. apply last_fld_in. intros ->. now apply N. Qed.
(** the value of the last field *)
Lemma run_last_value s fields types constants F L b es f size vd : wf s fields -> run s types constants F L b es -> f = last_fld es -> f <> INITIAL ->
  types f = FScalar size vd -> exists v, env_of constants F L es (NVar f) = VInt v /\ 0 <= v < 2 ^ size /\ vd v = true.
Proof.
  intros W R E N T. destruct R as [|es e R ST]; [subst f; now destruct N|]. rewrite last_fld_snoc in E. exists (e_val e).
  assert (R' : run s types constants F L b (es ++ [e])) by now constructor.
  rewrite (env_entry s fields types constants W F L b (es ++ [e]) e (NVar f) R'); [|apply in_or_app; right; now left|exact E].
  destruct ST as (_ & C & _). unfold content in C. rewrite <- E, T in C. destruct C as (C1 & _ & C2). auto.
Qed.
Lemma env_int constants F L es n : exists v, env_of constants F L es n = VInt v.
Proof. unfold env_of. destruct (find _ es); eauto. Qed.

Ltac own_names R S :=
  split; [intros _; eapply reached_in; [exact R|exact S|discriminate]
         |split; [intros _; discriminate|intros Q; exfalso; apply Q; cbn; tauto]].
Lemma own_named s fields types constants F L b es f size vd : reached s types constants F L b es -> f = last_fld es -> f <> INITIAL ->
  In f fields -> types f = FScalar size vd -> named fields types constants es (NVar f).
Proof.
  intros R E N IF T. split; [intros _; eapply reached_in; eauto|]. split; [intros _; rewrite T; discriminate|contradiction].
Qed.

Example C50_meets : proper tlv tlv_fields tlv_types no_constants /\ no_own (structure tlv) ALast /\ structure tlv <> [].
Proof.
  destruct C37_meets as (A & _ & NO & _ & FC). pose proof (acc_wf _ _ _ _ _ A) as W.
  split; [constructor; auto|split; [|discriminate]].
  - intros F L b es l e n _ _ R I S IE J.
    destruct I as [<-|[<-|[<-|[<-|[<-|[]]]]]]; cbn in IE; repeat (destruct IE as [<-|IE]); try destruct IE; cbn in J;
      repeat (destruct J as [<-|J]); try destruct J;
      (eapply own_named; [exact R|exact S|discriminate|cbn; tauto|reflexivity]).
  - intros F L b es l _ _ R I S. split.
    + destruct I as [<-|[<-|[<-|[<-|[<-|[]]]]]]; cbn [condition lk var_is aeval bind]; try (eexists; reflexivity);
        destruct (env_int no_constants F L es (NVar "tag")) as (v & ->); cbn [rel_res]; eexists; reflexivity.
    + intros RR H NF T. destruct I as [<-|[<-|[<-|[<-|[<-|[]]]]]]; try discriminate T; try (now destruct NF).
      destruct (run_last_value _ tlv_fields tlv_types no_constants F L b es "length" 16 (fun _ => true) W RR S) as (v & E & V & _);
        [discriminate|reflexivity|].
      cbn [lsize lk]. do 2 eexists. split; [reflexivity|].
      cbn [aeval map ass_res all_ints as_int bind]. rewrite E. cbn [as_int bind fold_right]. unfold int_res.
      assert (Q : in_S64 (v * (8 * 1)) = true) by (unfold in_S64; apply andb_true_iff; rewrite Z.leb_le, Z.ltb_lt; lia). rewrite Q.
      split; [reflexivity|]. unfold Bit_Length_Last. lia.
  - intros l I J. repeat (destruct I as [<-|I]; [cbn in J; decompose [or] J; try discriminate; try contradiction|]). destruct I.
  - intros l I J. repeat (destruct I as [<-|I]; [cbn in J; decompose [or] J; try discriminate; try contradiction|]). destruct I.
Qed.
Example C50_case : exists x, verify_message (structure tlv) tlv_fields tlv_types no_constants (initialize tlv_fields (mkBuffer 1 [1; 255; 255; 7; 8]) 1 40) = Ok x /\
  structural_valid_message (structure tlv) tlv_fields tlv_types no_constants 4 x = Ok false.
Proof. eexists. split; vm_compute; reflexivity. Qed.

(** ** What does not hold *)

(** The sizes that are computed from the values of fields are not checked: a length of
    32 bits makes the parser fail on a buffer that it should reject. *)
Definition long_tlv : message := mkMessage
  [ lk INITIAL "length" ETrue None None;
    lk "length" "value" ETrue (Some (EAss OMul [EName (NVar "length") false; ENum 8])) None;
    lk "value" FINAL ETrue None None ] ["length"; "value"] [].
Definition long_types (limit : Z) (f : field) : ftype :=
  if String.eqb f "length" then FScalar 32 (fun v => v <=? limit) else FComposite.
Lemma long_accepted limit : accepted 20 long_tlv ["length"; "value"] (long_types limit) no_constants.
Proof.
  constructor; [reflexivity|no_final| |unique_source].
  intros f size vd. unfold long_types. destruct (String.eqb f "length"); [|discriminate]. intros E. injection E as <- <-. lia.
Qed.
Theorem C50_size_refuted : exists n m fields types constants b first last,
  accepted n m fields types constants /\ scoped (structure m) fields /\ no_overlay (structure m) /\
  types (first_field fields) <> FComposite /\ visible (structure m) fields types constants /\
  (forall a, no_own (structure m) a) /\ input b first last /\
  verify_message (structure m) fields types constants (initialize fields b first last) = Err "Bit_Length range".
Proof.
  exists 20%nat, long_tlv, ["length"; "value"], (long_types (2 ^ 32)), no_constants, (mkBuffer 1 [128; 0; 0; 0]), 1, 32.
  split; [apply long_accepted|]. split; [scope|].
  split; [intros l I; repeat (destruct I as [<-|I]; [reflexivity|]); destruct I|]. split; [discriminate|]. split; [|split; [|split]].
  - intros F L b es l e n _ _ R I S IE J.
    destruct I as [<-|[<-|[<-|[]]]]; cbn in IE; repeat (destruct IE as [<-|IE]); try destruct IE; cbn in J;
      repeat (destruct J as [<-|J]); try destruct J;
      (eapply own_named; [exact R|exact S|discriminate|cbn; tauto|reflexivity]).
  - intros a l I J. repeat (destruct I as [<-|I]; [cbn in J; decompose [or] J; try discriminate; try contradiction|]). destruct I.
  - split; [split; [cbn; lia|]|split; [lia|reflexivity]]. intros x I. cbn in I. decompose [or] I; subst; try lia; contradiction.
  - vm_compute. reflexivity.
Qed.

(** The precondition of a setter evaluates the condition at the end of the field before it
    is known whether the field fits in the buffer: if the condition refers to the last
    bit of the field, this bit need not be a value of Bit_Index. *)
Definition own_last : message := mkMessage
  [ lk INITIAL "length" ETrue None None;
    lk "length" "value" ETrue (Some (EAss OMul [EName (NVar "length") false; ENum 8])) None;
    lk "value" FINAL (ERel OEq (EName (NAttr ALast "value") false) (EName (NAttr ALast "message") false)) None None ] ["length"; "value"] [].
Lemma own_last_accepted : accepted 20 own_last ["length"; "value"] (long_types (2 ^ 31 - 1)) no_constants.
Proof.
  constructor; [reflexivity|no_final| |unique_source].
  intros f size vd. unfold long_types. destruct (String.eqb f "length"); [|discriminate]. intros E. injection E as <- <-. lia.
Qed.
Theorem C50_own_last_refuted : exists n m fields types constants b first last f v x g,
  accepted n m fields types constants /\ proper m fields types constants /\ scoped (structure m) fields /\
  no_own_size (structure m) types /\ input b first last /\ typed fields types (OSet f v) /\ typed fields types (OComposite S_Valid g) /\
  exec (structure m) fields types constants (initialize fields b first last) (OSet f v) = Ok x /\
  exec (structure m) fields types constants x (OComposite S_Valid g) = Err "Bit_Index range".
Proof.
  exists 20%nat, own_last, ["length"; "value"], (long_types (2 ^ 31 - 1)), no_constants, (mkBuffer 1 [0; 0; 0; 0]), 1, 32, "length", (2 ^ 31 - 1).
  set (start := initialize ["length"; "value"] (mkBuffer 1 [0; 0; 0; 0]) 1 32).
  exists (match exec (structure own_last) ["length"; "value"] (long_types (2 ^ 31 - 1)) no_constants start (OSet "length" (2 ^ 31 - 1)) with
          | Ok x => x
          | Err _ => start
          end), "value".
  split; [apply own_last_accepted|]. split.
  { pose proof (acc_wf _ _ _ _ _ own_last_accepted) as W. constructor.
    - intros l I. repeat (destruct I as [<-|I]; [reflexivity|]). destruct I.
    - discriminate.
    - intros F L b es l e n _ _ R I S IE J.
      destruct I as [<-|[<-|[<-|[]]]]; cbn in IE; repeat (destruct IE as [<-|IE]); try destruct IE; cbn in J;
        repeat (destruct J as [<-|J]); try destruct J.
      + eapply own_named; [exact R|exact S|discriminate|cbn; tauto|reflexivity].
      + split; [intros _; eapply reached_in; [exact R|exact S|discriminate]|]. split; [discriminate|]. cbn. tauto.
      + split; [cbn; intros [Q|[Q|[]]]; discriminate Q|]. split; [discriminate|]. cbn. tauto.
    - intros F L b es l _ _ R I S. split.
      + destruct I as [<-|[<-|[<-|[]]]]; cbn [condition lk aeval bind]; try (eexists; reflexivity).
        destruct (env_int no_constants F L es (NAttr ALast "value")) as (v & ->), (env_int no_constants F L es (NAttr ALast "message")) as (w & ->).
        cbn [rel_res]. eexists. reflexivity.
      + intros RR H NF T. destruct I as [<-|[<-|[<-|[]]]]; try discriminate T; try (now destruct NF).
        destruct (run_last_value _ ["length"; "value"] (long_types (2 ^ 31 - 1)) no_constants F L b es "length" 32 (fun v => v <=? 2 ^ 31 - 1) W RR S) as (v & E & V & VD);
          [discriminate|reflexivity|].
        apply Z.leb_le in VD.
        cbn [lsize lk]. do 2 eexists. split; [reflexivity|].
        cbn [aeval map ass_res all_ints as_int bind]. rewrite E. cbn [as_int bind fold_right]. unfold int_res.
        assert (Q : in_S64 (v * (8 * 1)) = true) by (unfold in_S64; apply andb_true_iff; rewrite Z.leb_le, Z.ltb_lt; lia). rewrite Q.
        split; [reflexivity|]. unfold Bit_Length_Last. lia.
    - intros l I J. repeat (destruct I as [<-|I]; [cbn in J; decompose [or] J; try discriminate; try contradiction|]). destruct I. }
  split; [scope|].
  split; [intros l I C J; repeat (destruct I as [<-|I]; [cbn in J; decompose [or] J; try discriminate; try contradiction|]); destruct I|].
  split.
  { split; [split; [cbn; lia|]|split; [lia|reflexivity]]. intros x I. cbn in I. decompose [or] I; subst; try lia; contradiction. }
  split; [split; [now left|exists 32, (fun v => v <=? 2 ^ 31 - 1); split; [reflexivity|lia]]|].
  split; [split; [now right; left|split; [reflexivity|auto]]|].
  split.
  - assert (K : match exec (structure own_last) ["length"; "value"] (long_types (2 ^ 31 - 1)) no_constants start (OSet "length" (2 ^ 31 - 1)) with
                | Ok _ => true | Err _ => false end = true) by (vm_compute; reflexivity).
    destruct (exec _ _ _ _ _ _); [reflexivity|discriminate K].
  - vm_compute. reflexivity.
Qed.

Print Assumptions C50_verify.
Print Assumptions C50_message.
Print Assumptions C50_predicate.
Print Assumptions C50_decides.
Print Assumptions C50_history.
Print Assumptions C50_history_message.
Print Assumptions C50_roundtrip.
Print Assumptions C50_size_refuted.
Print Assumptions C50_own_last_refuted.
