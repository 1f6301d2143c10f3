(** C26, continued: what the verification of a message gives to the generated parser.
    The theorems about generated code (P_Gen.v) suppose that at most one link leads on
    after every beginning of a message in a buffer; here this follows from the answers
    of the solver. *)
From Coq Require Import String List ZArith Bool Lia.
From Verif Require Import Base Expr ExprEval ExprFacts ExprTotal Ident TypeSpec MsgGraph MsgGraphFacts P_MsgGraph Solver SolverFacts Verify VerifySpec VerifyFacts AdaTypes AdaBuffer GenCode GenSpec GenFacts P_Gen P_Verify P_Occur.
From Verif Require P_VerifyCases.
Import ListNotations.
Local Open Scope string_scope.
Local Open Scope list_scope.
Local Open Scope Z_scope.
Local Open Scope res_scope.
Local Notation length := List.length.

(** a value of a type *)
Definition sample (t : scalar) : Z :=
  match t with
  | Modular _ _ _ _ => 0
  | Range _ f _ _ => f
  | Enum _ lits _ _ => match lits with [] => 0 | kv :: _ => snd kv end
  end.
Definition inhabited (m : vmessage) : Prop := forall f t, In (f, MScalar t) (v_types m) -> valid_number t (sample t).

(** the generated code knows the types and constants of the message *)
Record translated (m : vmessage) (fields : list field) (types : field -> ftype) (constants : name -> option Z) : Prop := {
  tr_scalar : forall f t, In (f, MScalar t) (v_types m) -> exists vd, types f = FScalar (type_size t) vd /\
    forall v, 0 <= v < 2 ^ type_size t -> vd v = true -> valid_number t v;
  tr_literal : forall f id lits size av k z, In (f, MScalar (Enum id lits size av)) (v_types m) ->
    In (k, z) (literal_names id lits (id_eq (v_package m) (package id))) ->
    constants (NVar (var k)) = Some z /\ ~ In (var k) (MESSAGE :: fields);
  tr_type : forall f t, In (f, MScalar t) (v_types m) ->
    constants (NAttr ASize (var (type_key (MScalar t)))) = Some (type_size t) /\
    ~ In (var (type_key (MScalar t))) (MESSAGE :: fields)
}.

(** a condition only mentions fields that come before it on every path (the type check
    of message.py:655-706 works path by path) *)
Definition scoped_paths (m : vmessage) (fields : list field) : Prop :=
  forall p l x, leads (v_structure m) INITIAL p (source l) -> In l (v_structure m) -> In x (names (condition l)) ->
    In (name_id x) fields -> In (name_id x) (map target p).
(** the message is asked for its position and size only if it takes whole bytes *)
Definition byte_bounds (m : vmessage) (first last : Z) : Prop :=
  first mod 8 = 1 /\ (last - first + 1) mod 8 = 0 \/
  forall l x, In l (v_structure m) -> In x (names (condition l)) -> name_id x <> MESSAGE.

Section Runs.
  Context (m : vmessage) (n : nat) (fields : list field) (types : field -> ftype) (constants : name -> option Z).
  Context (C : construct n (graph m) = Ok ([], fields)) (TR : translated m fields types constants) (IH : inhabited m).
  Context (ND : NoDup (map fst (v_types m))).
  Context (NN : forall f, In f (map fst (v_types m)) -> f <> MESSAGE /\ f <> FINAL /\ f <> INITIAL).
  Local Notation s := (v_structure m).
  Local Notation run := (run s types constants).

  Lemma type_field f : In f (map fst (v_types m)) <-> In f fields.
  Proof.
    destruct (C22_fields _ _ _ C) as (_ & X & Y & _). cbn [graph structure type_fields] in X, Y. split; intros H.
    - destruct (NN f H) as (_ & N1 & N2). now apply (Y f N2 N1).
    - destruct (proj1 (X f) H) as (N1 & N2 & _). now apply (Y f N1 N2).
  Qed.

  Lemma run_path F L b es : run F L b es -> exists p, leads s INITIAL p (last_fld es) /\ map target p = map e_fld es.
  Proof.
    induction 1 as [|es e R (p & LP & TP) ((l & size & I & SL & TL & _) & _)].
    - exists []. split; reflexivity.
    - exists (p ++ [l]). split.
      + eapply leads_app; [exact LP|]. unfold last_fld. rewrite map_app. cbn [map]. rewrite last_last. cbn. auto.
      + rewrite !map_app, TP. cbn. now rewrite TL.
  Qed.
  Lemma run_scalar F L b es e size vd : run F L b es -> In e es -> types (e_fld e) = FScalar size vd ->
    e_last e - e_first e + 1 = size /\ 0 <= e_val e < 2 ^ size /\ vd (e_val e) = true.
  Proof.
    induction 1 as [|es e0 R IHR ((l & sz & I & SL & TL & _ & _ & _ & SZ & _ & EL & _) & CO & _)]; intros J T; [destruct J|].
    apply in_app_or in J as [J|[<-|[]]]; [auto|]. rewrite T in SZ. unfold content in CO. rewrite T in CO.
    destruct CO as (V & _ & VD). split; [lia|auto].
  Qed.

  (** the fields found in the buffer, some value for all others *)
  Definition fill (aligned : bool) (F L : Z) (es : list entry) : env := fun x =>
    let known := env_of constants F L es x in
    match find (fun e => String.eqb (e_fld e) (name_id x)) es with
    | Some _ => known
    | None =>
      if String.eqb (name_id x) MESSAGE && negb aligned then
        VInt match x with NAttr AFirst _ => 1 | _ => 0 end
      else match x, lookup (v_types m) (name_id x) with
           | NVar _, Some (MScalar t) => VInt (sample t)
           | NAttr ASize _, Some (MScalar t) => VInt (type_size t)
           | _, _ => known
           end
    end.

  Lemma env_int F L es x : exists z, env_of constants F L es x = VInt z.
  Proof. unfold env_of. destruct (find _ es); eexists; reflexivity. Qed.
  Lemma fill_int al F L es : int_env (fill al F L es).
  Proof.
    intros x. unfold fill. destruct (find _ es); [apply env_int|].
    destruct (String.eqb (name_id x) MESSAGE && negb al); [eexists; reflexivity|].
    destruct x as [id|a id]; [|destruct a]; try apply env_int; destruct (lookup (v_types m) _) as [[t| |]|];
      try apply env_int; eexists; reflexivity.
  Qed.
  Lemma fill_absent al F L es x : ~ In (name_id x) fields -> name_id x <> MESSAGE -> (forall e, In e es -> In (e_fld e) fields) ->
    fill al F L es x = VInt (match constants x with Some z => z | None => 0 end).
  Proof.
    intros N NM IN.
    assert (FN : find (fun e => String.eqb (e_fld e) (name_id x)) es = None).
    { destruct (find _ es) as [e|] eqn:E; [|reflexivity]. apply find_some in E as [I E]. apply String.eqb_eq in E.
      exfalso. apply N. rewrite <- E. auto. }
    assert (LN : lookup (v_types m) (name_id x) = None).
    { destruct (lookup (v_types m) (name_id x)) as [t|] eqn:E; [|reflexivity]. exfalso. apply N, type_field.
      apply lookup_in in E. apply (in_map fst) in E. exact E. }
    apply String.eqb_neq in NM. unfold fill. rewrite FN, NM. cbn [andb].
    destruct x as [id|a id]; cbn [name_id] in *.
    - rewrite LN. unfold env_of. rewrite FN. reflexivity.
    - destruct a; try rewrite LN; unfold env_of; rewrite FN; change "message" with MESSAGE; rewrite NM; reflexivity.
  Qed.

  Lemma run_fields F L b es : run F L b es -> forall e, In e es -> In (e_fld e) fields.
  Proof.
    destruct (C22_fields _ _ _ C) as (_ & X & _). cbn [graph structure] in X.
    induction 1 as [|es e0 R IHR ((l & sz & I & SL & TL & NF & _) & _)]; intros e J; [destruct J|].
    apply in_app_or in J as [J|[<-|[]]]; [auto|]. apply X. split; [|split; [exact NF|exists l; auto]].
    rewrite <- TL. intros E. destruct (run_path _ _ _ _ R) as (p & LP & _). rewrite <- SL in LP.
    apply (C22_no_cycle _ _ _ C INITIAL (p ++ [l])); [destruct p; discriminate|].
    eapply leads_app; [exact LP|]. cbn. auto.
  Qed.

  Lemma fill_legal al F L b es : run F L b es -> (al = true -> F mod 8 = 1 /\ (L - F + 1) mod 8 = 0) -> legal m (fill al F L es).
  Proof.
    intros R AL. pose proof (run_fields _ _ _ _ R) as RF.
    assert (NMF : ~ In MESSAGE fields) by (intros K; apply type_field in K; destruct (NN _ K); congruence).
    assert (MN : find (fun e => String.eqb (e_fld e) MESSAGE) es = None).
    { destruct (find _ es) as [e|] eqn:E; [|reflexivity]. apply find_some in E as [I E]. apply String.eqb_eq in E.
      exfalso. apply NMF. rewrite <- E. auto. }
    assert (ML : lookup (v_types m) MESSAGE = None).
    { destruct (lookup (v_types m) MESSAGE) as [t|] eqn:E; [|reflexivity]. exfalso. apply NMF, type_field.
      apply lookup_in in E. apply (in_map fst) in E. exact E. }
    constructor.
    - apply fill_int.
    - intros f t I. unfold num, fill. cbn [name_id]. destruct (find (fun e => String.eqb (e_fld e) f) es) as [e|] eqn:E.
      + unfold env_of. rewrite E. cbn [number]. apply find_some in E as [J E]. apply String.eqb_eq in E.
        destruct (tr_scalar _ _ _ _ TR f t I) as (vd & T & V). rewrite <- E in T.
        destruct (run_scalar _ _ _ _ e _ _ R J T) as (_ & V1 & V2). auto.
      + destruct (NN f) as (NM & _); [apply (in_map fst) in I; exact I|]. apply String.eqb_neq in NM. rewrite NM. cbn [andb].
        rewrite (in_lookup _ _ _ ND I). cbn [number]. apply (IH f t I).
    - intros f t I. unfold num, fill. cbn [name_id]. destruct (find (fun e => String.eqb (e_fld e) f) es) as [e|] eqn:E.
      + unfold env_of. rewrite E. cbn [number]. apply find_some in E as [J E]. apply String.eqb_eq in E.
        destruct (tr_scalar _ _ _ _ TR f t I) as (vd & T & V). rewrite <- E in T.
        destruct (run_scalar _ _ _ _ e _ _ R J T) as (S & _). exact S.
      + destruct (NN f) as (NM & _); [apply (in_map fst) in I; exact I|]. apply String.eqb_neq in NM. rewrite NM. cbn [andb].
        rewrite (in_lookup _ _ _ ND I). reflexivity.
    - intros f id lits size av k z I J. destruct (tr_literal _ _ _ _ TR f id lits size av k z I J) as [CO NF].
      unfold num. rewrite fill_absent; [rewrite CO; reflexivity| | |exact RF]; cbn [name_id]; intros K; apply NF; [now right|left; congruence].
    - intros f t I. destruct (tr_type _ _ _ _ TR f t I) as [CO NF].
      unfold num. change (num (fill al F L es) (NAttr ASize (var (type_key (MScalar t)))) = type_size t).
      unfold num. rewrite fill_absent; [rewrite CO; reflexivity| | |exact RF]; cbn [name_id]; intros K; apply NF; [now right|left; congruence].
    - unfold num, fill. cbn [name_id]. rewrite MN. destruct al; cbn [negb andb]; rewrite String.eqb_refl; cbn [andb].
      + unfold env_of. rewrite MN. cbn [number]. change (MESSAGE =? "message")%string with true. cbv iota. now apply AL.
      + reflexivity.
    - unfold num, fill. cbn [name_id]. rewrite MN. destruct al; cbn [negb andb]; rewrite String.eqb_refl; cbn [andb].
      + rewrite ML. unfold env_of. rewrite MN. cbn [number]. change (MESSAGE =? "message")%string with true. cbv iota. now apply AL.
      + reflexivity.
  Qed.

  Lemma fill_agrees al F L b es l x : run F L b es -> scoped_paths m fields -> In l s -> source l = last_fld es ->
    In x (names (condition l)) -> (al = false -> name_id x <> MESSAGE) -> env_of constants F L es x = fill al F L es x.
  Proof.
    intros R SP I S J AL. unfold fill. destruct (find (fun e => String.eqb (e_fld e) (name_id x)) es) as [e|] eqn:E; [reflexivity|].
    assert (NF : ~ In (name_id x) fields).
    { intros K. destruct (run_path _ _ _ _ R) as (p & LP & TP). rewrite <- S in LP. specialize (SP p l x LP I J K).
      rewrite TP in SP. apply in_map_iff in SP as (e & E1 & E2). apply find_none with (x := e) in E; [|exact E2].
      rewrite E1, String.eqb_refl in E. discriminate. }
    assert (LN : lookup (v_types m) (name_id x) = None).
    { destruct (lookup (v_types m) (name_id x)) as [t|] eqn:K; [|reflexivity]. exfalso. apply NF, type_field.
      apply lookup_in in K. apply (in_map fst) in K. exact K. }
    destruct al; cbn [negb]; rewrite ?andb_false_r, ?andb_true_r.
    - destruct x as [id|a id]; cbn [name_id] in *; [|destruct a]; rewrite ?LN; reflexivity.
    - specialize (AL eq_refl). apply String.eqb_neq in AL. rewrite AL.
      destruct x as [id|a id]; cbn [name_id] in *; [|destruct a]; rewrite ?LN; reflexivity.
  Qed.
End Runs.

(** after every beginning of a message in a buffer at most one link leads on *)
Theorem C26_parsing : forall solve n m fields types constants first last buf es l1 l2,
  sound_unsat solve -> Message solve n m = Ok [] -> construct n (graph m) = Ok ([], fields) -> answered solve n m fields ->
  no_always_valid m -> modulus_known m -> inhabited m -> NoDup (map fst (v_types m)) ->
  (forall f, In f (map fst (v_types m)) -> f <> MESSAGE /\ f <> FINAL /\ f <> INITIAL) ->
  (forall l, In l (v_structure m) -> source l <> FINAL /\ plain_bool (condition l)) ->
  translated m fields types constants -> scoped_paths m fields -> byte_bounds m first last ->
  run (v_structure m) types constants first last buf es ->
  In l1 (v_structure m) -> In l2 (v_structure m) -> source l1 = last_fld es -> source l2 = last_fld es ->
  GenSpec.holds constants first last es l1 -> GenSpec.holds constants first last es l2 -> l1 = l2.
Proof.
  intros solve n m fields types constants F L b es l1 l2 SU A C AN NA MK IH ND NN LP TR SP BB R I1 I2 S1 S2 H1 H2.
  assert (X : exists al, (al = true -> F mod 8 = 1 /\ (L - F + 1) mod 8 = 0) /\
    (forall l x, In l (v_structure m) -> In x (names (condition l)) -> al = false -> name_id x <> MESSAGE)).
  { destruct BB as [BB|BB]; [exists true|exists false]; split; auto; try discriminate; eauto. }
  destruct X as (al & AL1 & AL2).
  assert (T : forall l, In l (v_structure m) -> source l = last_fld es -> GenSpec.holds constants F L es l ->
    taken (fill m constants al F L es) l).
  { intros l I S H. split; [eapply plain_tame; apply LP, I|]. unfold GenSpec.holds in H. rewrite <- H. symmetry. apply eval_sc_ext.
    intros x J. eapply fill_agrees; eauto. }
  eapply (C26_deterministic solve n m fields (fill m constants al F L es) l1 l2 SU A C AN NA MK).
  - eapply fill_legal; eauto.
  - exact I1.
  - exact I2.
  - congruence.
  - apply LP, I1.
  - now apply T.
  - now apply T.
Qed.

(** so the code generated for an accepted message has the properties of C37 - C39 *)
Theorem C26_generated : forall solve n m fields types constants,
  sound_unsat solve -> Message solve n m = Ok [] -> construct n (graph m) = Ok ([], fields) -> answered solve n m fields ->
  no_always_valid m -> modulus_known m -> inhabited m -> NoDup (map fst (v_types m)) ->
  (forall f, In f (map fst (v_types m)) -> f <> MESSAGE /\ f <> FINAL /\ f <> INITIAL) ->
  (forall l, In l (v_structure m) -> source l <> FINAL /\ plain_bool (condition l)) ->
  translated m fields types constants -> scoped_paths m fields ->
  (forall l x, In l (v_structure m) -> In x (names (condition l)) -> name_id x <> MESSAGE) ->
  (forall f size vd, types f = FScalar size vd -> 1 <= size <= 64) ->
  P_Gen.accepted n (graph m) fields types constants.
Proof.
  intros solve n m fields types constants SU A C AN NA MK IH ND NN LP TR SP NM TS.
  constructor; [exact C|intros l I; apply (LP l I)|exact TS|].
  intros F L b es l1 l2 R I1 I2 S1 S2 H1 H2. eapply C26_parsing; eauto. right. exact NM.
Qed.
Print Assumptions C26_parsing.
Print Assumptions C26_generated.

(** the message of P_VerifyCases.v *)
Local Notation tlv := P_VerifyCases.tlv.
Definition tlv_types (f : field) : ftype :=
  if String.eqb f "tag" then FScalar 8 (fun v => (v =? 1) || (v =? 3))
  else if String.eqb f "length" then FScalar 16 (fun _ => true) else FComposite.
Definition tlv_constants (x : name) : option Z :=
  match x with
  | NVar k => if memf k ["msg_data"; "tlv::msg_data"] then Some 1 else if memf k ["msg_error"; "tlv::msg_error"] then Some 3 else None
  | NAttr ASize k => if String.eqb k "tlv::tag" then Some 8 else if String.eqb k "tlv::length" then Some 16 else None
  | _ => None
  end.
Example C26_tlv_generated : P_Gen.accepted 10 (graph tlv) P_VerifyCases.tlv_fields tlv_types tlv_constants.
Proof.
  apply (C26_generated _ _ _ _ _ _ P_VerifyCases.tlv_unsat P_VerifyCases.tlv_accepted P_VerifyCases.tlv_constructed
    P_VerifyCases.tlv_answered P_VerifyCases.tlv_no_always_valid P_VerifyCases.tlv_modulus).
  - intros f t I. cbn in I. P_VerifyCases.members; cbn; auto. lia.
  - repeat constructor; cbn; intuition discriminate.
  - intros f I. cbn in I. P_VerifyCases.members; split; try split; discriminate.
  - intros l I. cbn in I. P_VerifyCases.members; split; (discriminate || reflexivity).
  - constructor.
    + intros f t I. cbn in I. P_VerifyCases.members.
      * eexists. split; [reflexivity|]. intros v _ V. cbn. apply orb_true_iff in V as [V|V]; apply Z.eqb_eq in V; auto.
      * eexists. split; [reflexivity|]. intros v V _. cbn in *. lia.
    + intros f id lits size av k z I K. cbn in I. P_VerifyCases.members. vm_compute in K.
      P_VerifyCases.members; (split; [reflexivity|vm_compute; intuition discriminate]).
    + intros f t I. cbn in I. P_VerifyCases.members; (split; [reflexivity|vm_compute; intuition discriminate]).
  - intros p l x L I J K. cbn in I. P_VerifyCases.members; cbn in J; try contradiction; P_VerifyCases.members; cbn in K; try (exfalso; intuition discriminate).
    + assert (NP : p <> []) by (intros ->; cbn in L; discriminate). destruct (exists_last NP) as (q & l & ->).
      destruct (leads_last tlv (q ++ [l]) _ l (rev q) L) as [_ T]; [now rewrite rev_app_distr|]. cbn in T. rewrite map_app, in_app_iff. right. left. exact T.
    + assert (NP : p <> []) by (intros ->; cbn in L; discriminate). destruct (exists_last NP) as (q & l & ->).
      destruct (leads_last tlv (q ++ [l]) _ l (rev q) L) as [_ T]; [now rewrite rev_app_distr|]. cbn in T. rewrite map_app, in_app_iff. right. left. exact T.
  - intros l x I J. cbn in I. P_VerifyCases.members; cbn in J; P_VerifyCases.members; discriminate.
  - intros f size vd. unfold tlv_types. destruct (String.eqb f "tag"); [intros E; injection E as <- <-; lia|].
    destruct (String.eqb f "length"); [intros E; injection E as <- <-; lia|discriminate].
Qed.
